(* P_ParContract4.v - proofs about M_ParContract: the contested edge, every run can be brought to its end, contractGraphFullMesh. *)
From Verif Require Import P_Cut.
From Verif Require Export P_ParContract3.

(** ** the contested edge *)
Lemma top_In l : l <> [] -> In (top l) l.
Proof. induction l as [|x l IH]; intro H; [congruence|]. cbn [top fold_right]. fold (top l). destruct l as [|y l]; [left; cbn; lia|]. destruct (Nat.max_spec x (top (y :: l))) as [[_ ->]|[_ ->]]; [right; apply IH; discriminate|left; auto]. Qed.
Lemma without_In x y l : In x (without y l) -> In x l.
Proof. induction l as [|z l IH]; cbn [without]; auto. destruct (z =? y); [right; auto|]. intros [->|I]; [left; auto|right; auto]. Qed.
Lemma without_len y l : In y l -> length l = S (length (without y l)).
Proof. induction l as [|z l IH]; intros []; cbn [without]; [subst; rewrite Nat.eqb_refl; auto|]. destruct (z =? y); cbn [length]; auto. Qed.
Lemma index_lt x l : In x l -> index_of x l < length l.
Proof. induction l as [|y l IH]; intros I; [destruct I|]. cbn [index_of length]. destruct (Nat.eqb_spec y x); [lia|]. destruct I as [I|I]; [congruence|]. specialize (IH I). lia. Qed.
Lemma contested_ok big n mapping num : 0 < num -> (big = true -> 2 <= num) ->
  exists ce b0 b1, contested big n mapping num = Some (ce, b0, b1) /\ b0 < num /\ b1 < num /\ (ce = 0%N \/ ce = key_of b1 b0).
Proof.
  intros N0 N2. unfold contested. destruct big; [|exists 0%N, 0, 0; auto]. specialize (N2 eq_refl). destruct (Nat.ltb_spec num 2); [lia|].
  set (el := count_blocks mapping num). assert (Le : length el = num) by (unfold el, count_blocks; rewrite map_length, seq_length; auto).
  assert (I0 : In (top el) el) by (apply top_In; intro Q; rewrite Q in Le; cbn in Le; lia). pose proof (without_len _ _ I0) as Lw.
  assert (I1 : In (top (without (top el) el)) el) by (eapply without_In; apply top_In; intro Q; rewrite Q in Lw; cbn in Lw; lia).
  destruct (n / 5 <? top (without (top el) el)); [|exists 0%N, 0, 0; auto].
  exists (key_of (index_of (top (without (top el) el)) el) (index_of (top el) el)), (index_of (top el) el), (index_of (top (without (top el) el)) el).
  split; [reflexivity|]. rewrite <- Le. split; [apply index_lt; auto|]. split; [apply index_lt; auto|right; reflexivity].
Qed.

(** ** every run can be brought to its end *)
Lemma run1_app ce : forall a b s, run1 ce s (a ++ b) = match run1 ce s a with Some s' => run1 ce s' b | None => None end.
Proof. induction a as [|i a IH]; intros; cbn [app run1]; [auto|]. destruct (step1 ce s i); auto. Qed.
Lemma run2_app tab : forall a b s, run2 tab s (a ++ b) = match run2 tab s a with Some s' => run2 tab s' b | None => None end.
Proof. induction a as [|i a IH]; intros; cbn [app run2]; [auto|]. destruct (step2 tab s i); auto. Qed.
Lemma first_open {A} (P : A -> bool) d : P d = false -> forall l : list A, (forall i, P (nth i l d) = false) \/ exists i, i < length l /\ P (nth i l d) = true.
Proof.
  intros Pd. induction l as [|x l IH]; [left; intros [|i]; auto|]. destruct (P x) eqn:E; [right; exists 0; cbn; split; [lia|auto]|].
  destruct IH as [IH|(i & Hi & Q)]; [left; intros [|i]; cbn; auto|right; exists (S i); cbn; split; [lia|auto]].
Qed.
Section Progress.
Context (num : nat) (Sm : small num).
Lemma more1 ce items (HI : forall p ct w, In (p, ct, w) items -> ct < p /\ p < num) : forall m s, length (concat (h_q s)) <= m -> inv1 num ce items s -> exists sched s', run1 ce s sched = Some s' /\ done1 s'.
Proof.
  induction m as [|m IH]; intros s L I; destruct (first_open (fun q : list item => match q with [] => false | _ => true end) [] eq_refl (h_q s)) as [F|(i & Hi & F)].
  1, 3: (exists [], s; split; [reflexivity|]; intro i; specialize (F i); destruct (nth i (h_q s) []); [auto|discriminate F]).
  - exfalso. destruct (concat_upd (h_q s) i Hi) as (rest & R & _). apply Permutation_length in R. rewrite app_length in R. destruct (nth i (h_q s) []); [discriminate F|cbn in R; lia].
  - destruct (step1_ok num Sm ce items HI s i I) as (s1 & E & I1 & _). destruct (nth i (h_q s) []) as [|[[p ct] w] r] eqn:Q; [discriminate F|].
    assert (Hq : h_q s1 = upd (h_q s) i r). { unfold step1 in E. rewrite Q in E. destruct (key_of p ct =? ce)%N; [injection E as <-; auto|]. destruct (has _ _); [injection E as <-; auto|]. destruct (_ && _); [injection E as <-; auto|discriminate E]. }
    destruct (concat_upd (h_q s) i Hi) as (rest & R1 & R2). rewrite Q in R1. specialize (R2 r). apply Permutation_length in R1, R2. rewrite app_length in R1, R2. cbn [length] in R1.
    destruct (IH s1) as (sched & s' & E' & D); [rewrite Hq; lia|auto|]. exists (i :: sched), s'. cbn [run1]. rewrite E. auto.
Qed.
Definition left_of (t : pc) : list unit := match t with P0 ks => repeat tt (3 * length ks) | P1 _ _ ks => repeat tt (2 + 3 * length ks) | P2 _ _ _ ks => repeat tt (1 + 3 * length ks) end.
Lemma more2 tab deg K : length deg = num -> (forall v, nth v deg 0 = length (filter (touches v) K)) -> (forall k, In k K -> edge_key num k) -> (forall k, In k K -> has k tab = true) ->
  forall m s L, length (flat_map left_of (d_thr s)) <= m -> inv2 num tab deg K s L -> exists sched s', run2 tab s sched = Some s' /\ done2 s'.
Proof.
  intros LD HD HE HT. induction m as [|m IH]; intros s L Le I; destruct (first_open (fun t => match t with P0 [] => false | _ => true end) (P0 []) eq_refl (d_thr s)) as [F|(i & Hi & F)].
  1, 3: (exists [], s; split; [reflexivity|]; intro i; specialize (F i); destruct (nth i (d_thr s) (P0 [])) as [[|? ?]|? ? ?|? ? ? ?]; [auto|discriminate F..]).
  - exfalso. destruct (flat_upd left_of (d_thr s) i (P0 []) Hi) as (rest & R & _). apply Permutation_length in R. rewrite app_length in R. destruct (nth i (d_thr s) (P0 [])) as [[|? ?]|? ? ?|? ? ? ?]; [discriminate F|cbn in R; lia..].
  - destruct (step2_ok num Sm tab deg K LD HD HE HT s L i I) as (s1 & L1 & E & I1 & _). destruct (flat_upd left_of (d_thr s) i (P0 []) Hi) as (rest & R1 & R2). apply Permutation_length in R1. rewrite app_length in R1.
    assert (exists t, d_thr s1 = upd (d_thr s) i t /\ length (left_of t) < length (left_of (nth i (d_thr s) (P0 [])))) as (t & Ht & Lt).
    { unfold step2 in E. destruct (nth i (d_thr s) (P0 [])) as [[|k ks]|k fd ks|k fd sd ks]; [discriminate F| | |]; destruct (_ : bool) in E; try discriminate E; injection E as <-; eexists; (split; [reflexivity|]); cbn [left_of length]; rewrite !repeat_length; lia. }
    specialize (R2 t). apply Permutation_length in R2. rewrite app_length in R2. destruct (IH s1 L1) as (sched & s' & E' & D); [rewrite Ht; lia|auto|]. exists (i :: sched), s'. cbn [run2]. rewrite E. auto.
Qed.
End Progress.
