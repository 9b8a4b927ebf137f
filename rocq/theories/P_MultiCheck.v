(* P_MultiCheck.v - deciding the optimum of small instances (for witnesses). *)
From Verif Require Import SpecMulti P_Multi.

Fixpoint assigns (n k : nat) : list (list nat) :=
  match n with 0 => [[]] | S n' => flat_map (fun l => map (fun b => b :: l) (seq 0 k)) (assigns n' k) end.

Lemma assigns_in k : forall n l, length l = n -> (forall x, In x l -> x < k) -> In l (assigns n k).
Proof.
  induction n as [|n IH]; intros l L H; [destruct l; [left; auto|discriminate]|]. destruct l as [|b l]; [discriminate|]. cbn [assigns].
  apply in_flat_map. exists l. split; [apply IH; [cbn in L; lia|intros x Hx; apply H; right; auto]|].
  apply in_map_iff. exists b. split; [auto|]. apply in_seq. specialize (H b (or_introl eq_refl)). lia.
Qed.

Definition sepb (ts : list nat) (l : list nat) : bool := forallb (fun i => nth (nth i ts 0) l 0 =? i) (seq 0 (length ts)).
Definition lower_check (n : nat) (W : wfun) (ts : list nat) (c : N) : bool :=
  forallb (fun l => negb (sepb ts l) || N.leb c (mtcost n W (fun v => nth v l 0))) (assigns n (length ts)).

Lemma lower_check_ok n W ts c : (forall t, In t ts -> t < n) -> lower_check n W ts c = true -> forall f, separates n ts f -> (c <= mtcost n W f)%N.
Proof.
  intros HT H f F. unfold lower_check in H. rewrite forallb_forall in H.
  assert (Q : forall v, v < n -> nth v (map f (seq 0 n)) 0 = f v).
  { intros v Hv. rewrite (nth_indep _ 0 (f 0)) by (rewrite map_length, seq_length; auto). rewrite map_nth, seq_nth by auto. reflexivity. }
  specialize (H (map f (seq 0 n))). rewrite (mtcost_ext n W W f (fun v => nth v (map f (seq 0 n)) 0)) by (auto; intros; rewrite Q; auto).
  assert (X : In (map f (seq 0 n)) (assigns n (length ts))).
  { apply assigns_in; [rewrite map_length, seq_length; auto|]. intros x Hx. apply in_map_iff in Hx. destruct Hx as (v & <- & Hv). apply in_seq in Hv. apply F. lia. }
  specialize (H X). apply orb_prop in H. destruct H as [H|H]; [|apply N.leb_le in H; auto].
  exfalso. apply Bool.negb_true_iff in H. assert (Y : sepb ts (map f (seq 0 n)) = true); [|congruence].
  apply forallb_forall. intros i Hi. apply in_seq in Hi. apply Nat.eqb_eq. rewrite Q; [apply F; lia|apply HT, nth_In; lia].
Qed.

Lemma mtopt_unique n W ts c c' : mtopt n W ts c -> mtopt n W ts c' -> c = c'.
Proof. intros [[f [F E]] L] [[f' [F' E']] L']. specialize (L f' F'). specialize (L' f F). lia. Qed.

(** l is an optimal assignment *)
Definition opt_check (n : nat) (W : wfun) (ts : list nat) (c : N) (l : list nat) : bool :=
  forallb (fun t => t <? n) ts && (length l =? n) && forallb (fun b => b <? length ts) l && sepb ts l &&
  N.eqb (mtcost n W (fun v => nth v l 0)) c && lower_check n W ts c.
Lemma opt_check_ok n W ts c l : opt_check n W ts c l = true -> mtopt n W ts c.
Proof.
  unfold opt_check. intro H. do 5 (apply andb_prop in H; destruct H as [H ?]).
  rewrite forallb_forall in H. apply Nat.eqb_eq in H4. rewrite forallb_forall in H3. apply N.eqb_eq in H1.
  assert (HT : forall t, In t ts -> t < n) by (intros t Ht; apply Nat.ltb_lt; auto). split.
  - exists (fun v => nth v l 0). split; [|auto]. split.
    + intros v Hv. apply Nat.ltb_lt, H3, nth_In. lia.
    + intros i Hi. unfold sepb in H2. rewrite forallb_forall in H2. apply Nat.eqb_eq, H2, in_seq. lia.
  - apply lower_check_ok; auto.
Qed.
