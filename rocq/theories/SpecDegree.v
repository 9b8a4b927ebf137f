(* SpecDegree.v - specification of degree queries.  The graph is seen as the list of its edges, each
   with its source and its current weight. *)
From Verif Require Export M_Graph.

Definition wedges := list (nat * N).          (* edge number -> (source, weight) *)
Definition sp_deg (l : wedges) (v : nat) : N := sumN snd (filter (fun e => fst e =? v) l).
Definition sp_set (l : wedges) (e : nat) (w : N) : wedges := upd l e (fst (nth e l (0, 0%N)), w).

Definition sp_min (n : nat) (l : wedges) (d : N) : Prop :=
  (forall v, v < n -> (d <= sp_deg l v)%N) /\ exists v, v < n /\ d = sp_deg l v.
Definition sp_max (n : nat) (l : wedges) (d : N) : Prop :=
  (forall v, v < n -> (sp_deg l v <= d)%N) /\ exists v, v < n /\ d = sp_deg l v.

(** what one call should answer *)
Definition sp_answer (n : nat) (l : wedges) (c : gcall) (r : option N) : Prop :=
  match c with
  | GSet _ _ => r = None
  | GDeg v => r = Some (sp_deg l v)
  | GMin => exists d, r = Some d /\ sp_min n l d
  | GMax => exists d, r = Some d /\ sp_max n l d
  end.
Definition sp_next (l : wedges) (c : gcall) : wedges :=
  match c with GSet e w => sp_set l e w | _ => l end.

(** Every call in range is answered correctly.  Once a call is out of range nothing is required any
    more; degrees are assumed to fit the 64-bit type. *)
Definition in_range (n : nat) (l : wedges) (c : gcall) : Prop :=
  match c with GSet e _ => e < length l | GDeg v => v < n | _ => forall v, v < n -> (sp_deg l v <= u64max)%N end.

Fixpoint sp_session (n : nat) (l : wedges) (cs : list gcall) (rs : list (option N)) : Prop :=
  match cs with
  | [] => rs = []
  | c :: cs' => in_range n l c ->
      match rs with [] => False | r :: rs' => sp_answer n l c r /\ sp_session n (sp_next l c) cs' rs' end
  end.

(** no weight is changed after a minimum or maximum has been asked for *)
Fixpoint no_late_set (cs : list gcall) : Prop :=
  match cs with
  | [] => True
  | (GMin | GMax) :: cs' => (forall e w, ~ In (GSet e w) cs') /\ no_late_set cs'
  | _ :: cs' => no_late_set cs'
  end.
