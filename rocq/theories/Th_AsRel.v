(** Reading any text as an AS relationship file (C86). *)
From Verif Require Import Spec_AsRel P_AsRel.
Local Open Scope string_scope.
Local Open Scope list_scope.

(** A text has lines in one way. If it ends with a carriage return then it depends on the version of Rust whether this belongs to the last line. *)
Theorem C86_lines : forall (text : string), ~ ends_with_cr text -> exists ls, text_lines text ls /\ forall ls', text_lines text ls' -> ls' = ls.
Proof. exact lines_of_text. Qed.
Print Assumptions C86_lines.

(** If every line says something then the text is read as the graph with the links that the lines say and no more nodes than needed. *)
Theorem C86_reading : forall (text : string) (ls : list string) (items : list as_item), text_lines text ls -> ~ ends_with_cr text -> Forall2 line_says ls items ->
  exists g, from_as_rel_string text = Ok g /\ ascending_links g /\
    (forall i j, link g i j <-> said_link items i j) /\ least_above (said_node items) (List.length g).
Proof. intros text ls items Ht He. exact (proj1 (read_any text ls Ht He) items). Qed.
Print Assumptions C86_reading.

(** Any other text is a panic. *)
Theorem C86_rejected : forall (text : string) (ls : list string), text_lines text ls -> ~ ends_with_cr text ->
  (from_as_rel_string text = Panic <-> ~ exists items, Forall2 line_says ls items).
Proof. exact read_any_iff. Qed.
Print Assumptions C86_rejected.

Example C86_example : text_lines odd_text odd_lines /\ ~ ends_with_cr odd_text /\ Forall2 line_says odd_lines odd_items /\
  from_as_rel_string odd_text = Ok [[]; []; [7]; []; []; []; []; [2; 3]] /\
  from_as_rel_string "1|2|0 " = Panic /\ from_as_rel_string " 1|2|0" = Panic /\ from_as_rel_string "1|-2|0" = Panic /\ from_as_rel_string "1|2|+-0" = Panic /\
  from_as_rel_string "1|2|+1" = Panic /\ from_as_rel_string "1||0" = Panic /\ from_as_rel_string "1|2|" = Panic /\ from_as_rel_string "1|18446744073709551615|0" = Panic.
Proof.
  split; [apply odd_read|]. split; [apply odd_read|]. split; [apply odd_read|]. do 8 (split; [vm_compute; reflexivity|]). lazy. reflexivity.
Qed.
