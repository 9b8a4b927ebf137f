(* SpecDyn.v - specification for dynamic minimum cuts: a cactus as a graph C with a map pos of the vertices of the graph to the
   vertices of C, whose cuts of value c stand for minimum cuts.  Independent of the models. *)
From Verif Require Export SpecCut.

(** every cut of value c of the cactus is a cut of value c of the graph *)
Definition sound (n : nat) (W : wfun) (c : N) (k : nat) (WC : wfun) (pos : nat -> nat) : Prop :=
  forall f, proper k f -> cutw k WC f = c -> proper n (fun x => f (pos x)) /\ cutw n W (fun x => f (pos x)) = c.

(** every cut of value c of the graph is a cut of value c of the cactus *)
Definition complete (n : nat) (W : wfun) (c : N) (k : nat) (WC : wfun) (pos : nat -> nat) : Prop :=
  forall S, proper n S -> cutw n W S = c -> exists f, cutw k WC f = c /\ forall x, x < n -> f (pos x) = S x.

(** any two vertices of the cactus are on different sides of some cut of value c *)
Definition apart (c : N) (k : nat) (WC : wfun) : Prop :=
  forall a b, a < k -> b < k -> a <> b -> exists f, f a <> f b /\ cutw k WC f = c.

(** no cut of the cactus is below c *)
Definition atleast (c : N) (k : nat) (WC : wfun) : Prop := forall f, proper k f -> (c <= cutw k WC f)%N.

(** smallest weight of a cut between s and t *)
Definition is_stcut (n : nat) (W : wfun) (s t : nat) (c : N) : Prop :=
  (exists S, S s <> S t /\ cutw n W S = c) /\ forall S, S s <> S t -> (c <= cutw n W S)%N.
