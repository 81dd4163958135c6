(** Texts of floating point numbers: C76. *)
From Coq Require Import ZArith Reals Ascii.
From Flocq Require Import Core IEEE754.BinarySingleNaN.
From Verif Require Import P_FloatRound P_FloatParse Spec_FloatText Spec_Csv M_CliText.
Local Open Scope string_scope.
Local Open Scope list_scope.
Local Open Scope nat_scope.

(** C76: a text is read as the double next to the number that it denotes, and only texts of the documented form are read *)
Theorem C76_parse : forall (s : list ascii) (x : f64), parse_f64 s = Some x <-> means_double s x.
Proof. exact parse_spec. Qed.
Print Assumptions C76_parse.

(** the written text is read as the number that was written, also if it is not finite *)
Theorem C76_round_trip : forall (x : f64), ryu_text x <> [] /\ parse_f64 (ryu_text x) = Some x.
Proof. exact ryu_readable. Qed.
Print Assumptions C76_round_trip.

(** no text with fewer digits is read as the number, and no text with as many digits is closer to it *)
Theorem C76_shortest : forall (x : f64) (d : N) (k : Z) (t : list ascii) (negative : bool), @is_finite_strict 53 1024 x = true ->
  ryu_text x = bytes (if negative then "-" else "") ++ t -> literal t d k ->
  rounds negative (decimal_value d k) x /\
  forall n d' k', rounds negative (decimal_value d' k') x -> significant n d' k' ->
    significant n d k /\ ((forall j, significant j d k -> n <= j) ->
      (Rabs (decimal_value d k - Rabs (@B2R 53 1024 x)) <= Rabs (decimal_value d' k' - Rabs (@B2R 53 1024 x)))%R).
Proof. exact ryu_shortest. Qed.
Print Assumptions C76_shortest.

(** in JSON: numbers that are not integers in form, or [null]; different finite numbers have different texts *)
Theorem C76_json : forall (minus_zero : bool), float_format minus_zero json_float_text /\ faithful_format json_float_text.
Proof. exact (fun mz => conj (json_float_format mz) json_float_faithful). Qed.
Print Assumptions C76_json.

Definition written (s : string) : option string := option_map (fun x => string_of_list_ascii (ryu_text x)) (parse_f64 (bytes s)).
Example C76_example :
  map written ["2.50"; "+1E2"; ".1"; "5."; "0.3333333333333333333"; "1e16"; "123456789012345680"; "1e-5"; "0.00012"; "-0"; "4.9e-324"; "1e400"; "-1e400"; "Infinity"; "nAn"] =
  map Some ["2.5"; "100.0"; "0.1"; "5.0"; "0.3333333333333333"; "1e16"; "1.2345678901234568e17"; "0.00001"; "0.00012"; "-0.0"; "5e-324"; "inf"; "-inf"; "inf"; "NaN"] /\
  map (fun s => parse_f64 (bytes s)) [""; "."; "e5"; "1e"; "1e+"; "0x1"; "1,5"; " 1"; "1 "; "1_0"; "--1"; "infi"] = repeat None 12.
Proof. split; vm_compute; reflexivity. Qed.
Example C76_halves : exists x d k, @is_finite_strict 53 1024 x = true /\ ryu_text x = bytes "-" ++ bytes "2.5" /\ literal (bytes "2.5") d k.
Proof.
  destruct (parse_f64 (bytes "-2.5")) as [x|] eqn:E; [|discriminate (f_equal (fun o => match o with Some _ => true | None => false end) E)].
  exists x, 25%N, (-1)%Z. apply decimal_half with (1 := E).
Qed.
