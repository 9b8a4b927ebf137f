(* SpecArtic.v - specification: articulation points.  Independent of the models. *)
From Coq Require Export Arith List.

(** u and w are joined by a path whose vertices all satisfy ok *)
Inductive joined (E : nat -> nat -> Prop) (ok : nat -> Prop) : nat -> nat -> Prop :=
| joined_refl u : ok u -> joined E ok u u
| joined_step u v w : ok u -> E u v -> joined E ok v w -> joined E ok u w.

(** removing x disconnects two vertices that were joined *)
Definition articulation (E : nat -> nat -> Prop) (x : nat) : Prop :=
  exists u w, u <> x /\ w <> x /\ joined E (fun _ => True) u w /\ ~ joined E (fun y => y <> x) u w.
