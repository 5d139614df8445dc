(** What a Switch with a table of tarvals does, independent of its rewrites. *)
Require Import ZArith List Bool.
From Verif Require Import Base TarvalModel TarvalSpec IrModel IrSpec DvModel.
From Verif Require SwitchModel SwitchSpec.
Import ListNotations.
Open Scope Z_scope.

(** The numbers in a table. *)
Definition cases (table : list case) : list SwitchModel.entry :=
  map (fun k => SwitchModel.mke (number (k_min k)) (number (k_max k)) (k_pn k)) table.
(** A table for a selector of mode [m] (irverify.c verify_switch_table): bounds of
    that mode in order, no value in two cases, targets below [n_outs]. *)
Definition table_fits (m : mode) (n_outs : nat) (table : list case) : Prop :=
  (forall k, In k table -> k_pn k <> O ->
     is_val m (number (k_min k)) (k_min k) /\ is_val m (number (k_max k)) (k_max k) /\ number (k_min k) <= number (k_max k)) /\
  (forall k, In k table -> (k_pn k < n_outs)%nat) /\
  ForallOrdPairs SwitchSpec.apart (cases table).
