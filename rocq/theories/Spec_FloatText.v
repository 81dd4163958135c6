(** Specification of texts of floating point numbers: the grammar that [f64::from_str] documents, and correct rounding.
    Shares only data types with the model. *)
From Coq Require Import ZArith Reals Ascii.
From Flocq Require Import Core IEEE754.BinarySingleNaN.
From Verif Require Export Spec_CliText M_FloatText.
Local Open Scope string_scope.
Local Open Scope list_scope.

(** ** rounding to the nearest double, ties to even *)
Definition nearest_double (r : R) : R := round radix2 (FLT_exp (-1074) 53) ZnearestE r.
Definition largest_power : R := bpow radix2 1024.
(** [x] is the double for a number of absolute value [r] *)
Definition rounds (negative : bool) (r : R) (x : f64) : Prop :=
  let v := nearest_double r in
  ((v < largest_power)%R /\ @is_finite 53 1024 x = true /\ @B2R 53 1024 x = (if negative then - v else v)%R /\ @Bsign 53 1024 x = negative) \/
  ((largest_power <= v)%R /\ x = @B754_infinity 53 1024 negative).
Definition decimal_value (d : N) (k : Z) : R := (IZR (Z.of_N d) * powerRZ 10 k)%R.

(** ** texts *)
Definition sign_text (t : list ascii) (negative : bool) : Prop :=
  (t = [] \/ t = bytes "+") /\ negative = false \/ t = bytes "-" /\ negative = true.
Definition any_digits (t : list ascii) : Prop := forall c, In c t -> In c decimal_digits.
(** [word] in upper case and lower case letters *)
Definition spelled (word : string) (t : list ascii) : Prop :=
  Forall2 (fun c c' => c' = c \/ (N_of_ascii c' + 32)%N = N_of_ascii c) (bytes word) t.
Inductive exponent_text : list ascii -> Z -> Prop :=
| no_exponent : exponent_text [] 0
| some_exponent c sign negative ds n : spelled "e" [c] -> sign_text sign negative -> digits_of ds n ->
    exponent_text (c :: sign ++ ds) (if negative then - Z.of_N n else Z.of_N n).
(** the text of [d * 10 ^ k] *)
Definition literal (t : list ascii) (d : N) (k : Z) : Prop :=
  exists whole point fraction et e, t = whole ++ point ++ et /\ any_digits whole /\ any_digits fraction /\
    (point = [] /\ fraction = [] \/ point = bytes "." ++ fraction) /\ digits_of (whole ++ fraction) d /\ exponent_text et e /\
    k = (e - Z.of_nat (List.length fraction))%Z.
Definition means_double (s : list ascii) (x : f64) : Prop :=
  exists sign negative t, sign_text sign negative /\ s = sign ++ t /\
    ((spelled "inf" t \/ spelled "infinity" t) /\ x = @B754_infinity 53 1024 negative \/
     spelled "nan" t /\ x = @B754_nan 53 1024 \/
     exists d k, literal t d k /\ rounds negative (decimal_value d k) x).

(** ** decimals *)
(** [n] digits are enough to write [d * 10 ^ k] *)
Definition significant (n : nat) (d : N) (k : Z) : Prop :=
  exists d' k', decimal_value d k = decimal_value d' k' /\ (Z.of_N d' < 10 ^ Z.of_nat n)%Z.
