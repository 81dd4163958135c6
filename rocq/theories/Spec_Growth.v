(** Specification for growing FBASs: configurators that always return. *)
From Verif Require Export Spec_Simulation.

(** a configurator that never panics for an existing node *)
Definition total_configurator (Q : configurator) : Prop :=
  forall i f r, i < number_of_nodes f -> exists f' c r', Q i f r = Ok (f', c, r').
