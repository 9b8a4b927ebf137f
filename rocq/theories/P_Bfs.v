(* P_Bfs.v - proofs about the breadth-first searches of push_relabel. *)
From Verif Require Import SpecCut P_Mutable M_PushRelabel.

Definition unt (tc : list bool) : nat := length (filter negb tc).

Lemma unt_touch tc t : t < length tc -> nth t tc false = false -> S (unt (upd tc t true)) = unt tc.
Proof.
  revert t. induction tc as [|b tc IH]; intros t Ht E; [cbn in Ht; lia|]. destruct t as [|t]; cbn in *.
  - subst b. reflexivity.
  - unfold unt in *. cbn. specialize (IH t ltac:(lia) E). destruct b; cbn; lia.
Qed.
Lemma unt_le tc t : unt (upd tc t true) <= unt tc.
Proof.
  revert t. induction tc as [|b tc IH]; intros t; [cbn; lia|]. destruct t as [|t]; cbn in *.
  - unfold unt. cbn. destruct b; cbn; lia.
  - unfold unt in *. cbn. specialize (IH t). destruct b; cbn; lia.
Qed.
Lemma unt_repeat n : unt (repeat false n) = n.
Proof. induction n as [|n IH]; [reflexivity|]. unfold unt in *. cbn. lia. Qed.

Section Bfs.
Context {A : Type} (R : list (list half)) (ok : nat -> half -> bool) (f : nat -> nat -> A -> A).
Context (I : nat -> list half -> list nat -> list bool -> A -> Prop) (J : list nat -> list bool -> A -> Prop).
Context (HR : forall x h, In h (nth x R []) -> fst (fst h) < length R).
Context (H1 : forall x q tc a, J (x :: q) tc a -> I x (nth x R []) q tc a).
Context (H2 : forall x h l q tc a, In h (nth x R []) -> I x (h :: l) q tc a ->
   let '(q', tc', a') := bfs_edge ok f x (q, tc, a) h in I x l q' tc' a').
Context (H3 : forall x q tc a, I x [] q tc a -> J q tc a).

Lemma bfs_row x l : (forall h, In h l -> In h (nth x R [])) -> forall q tc a, length tc = length R -> I x l q tc a ->
  exists q' tc' a', fold_left (bfs_edge ok f x) l (q, tc, a) = (q', tc', a') /\ I x [] q' tc' a' /\
    length tc' = length R /\ length q' + unt tc' = length q + unt tc.
Proof.
  induction l as [|h l IH]; intros Hl q tc a Ht HI; cbn [fold_left].
  - exists q, tc, a. auto.
  - pose proof (H2 x h l q tc a (Hl h (or_introl eq_refl)) HI) as HI'. pose proof (HR x h (Hl h (or_introl eq_refl))) as Hh.
    unfold bfs_edge at 1 in HI'. unfold bfs_edge at 2.
    destruct (nth (fst (fst h)) tc false) eqn:E; [|destruct (ok x h) eqn:O].
    + apply IH; auto. intros; apply Hl; right; auto.
    + destruct (IH (fun h Hh => Hl h (or_intror Hh)) _ _ _ ltac:(rewrite upd_length; exact Ht) HI') as (q' & tc' & a' & X1 & X2 & X3 & X4).
      exists q', tc', a'. split; [auto|]. split; [auto|]. split; [auto|]. rewrite app_length in X4. cbn in X4.
      pose proof (unt_touch tc (fst (fst h)) ltac:(lia) E). lia.
    + apply IH; auto. intros; apply Hl; right; auto.
Qed.

Lemma bfs_run fuel : forall q tc a, length tc = length R -> length q + unt tc <= fuel -> J q tc a ->
  exists tc' a', bfs R ok f fuel q tc a = Some (tc', a') /\ J [] tc' a' /\ length tc' = length R.
Proof.
  induction fuel as [|k IH]; intros q tc a Ht Hf HJ.
  - destruct q as [|x q]; [|cbn in Hf; lia]. cbn. exists tc, a. auto.
  - destruct q as [|x q]; [cbn; exists tc, a; auto|]. cbn [bfs].
    destruct (bfs_row x (nth x R []) (fun h H => H) q tc a Ht (H1 _ _ _ _ HJ)) as (q' & tc' & a' & -> & X2 & X3 & X4).
    apply IH; [auto|cbn in Hf; lia|eauto].
Qed.
End Bfs.
