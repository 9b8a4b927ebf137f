(* Prop_Shuffle.v - property C44: the shuffles are permutations for every stream of random numbers. *)
From Coq Require Import Permutation.
From Verif Require Import M_Shuffle.

Lemma nth_error_upd_eq {A} (l : list A) i x : i < length l -> nth_error (upd l i x) i = Some x.
Proof. intro H. rewrite (nth_error_nth' _ x) by (rewrite upd_length; auto). rewrite nth_upd_eq; auto. Qed.
Lemma nth_error_upd_neq {A} (l : list A) i x k : k <> i -> nth_error (upd l i x) k = nth_error l k.
Proof.
  intro H. destruct (Nat.lt_ge_cases k (length l)) as [L|L].
  - rewrite (nth_error_nth' (upd l i x) x), (nth_error_nth' l x) by (rewrite ?upd_length; auto). rewrite nth_upd_neq; auto.
  - rewrite !(proj2 (nth_error_None _ _)); [reflexivity|auto|rewrite upd_length; auto].
Qed.
Lemma swap_ok {A} (l : list A) i j : i < length l -> j < length l -> exists l', swap l i j = Some l' /\ Permutation l l'.
Proof.
  intros Hi Hj. unfold swap. destruct (nth_error l i) as [x|] eqn:Ex; [|apply nth_error_None in Ex; lia]. destruct (nth_error l j) as [y|] eqn:Ey; [|apply nth_error_None in Ey; lia].
  eexists. split; [reflexivity|]. apply Permutation_nth_error. split; [rewrite !upd_length; reflexivity|].
  exists (fun k => if k =? i then j else if k =? j then i else k). split.
  - intros a b. destruct (Nat.eqb_spec a i), (Nat.eqb_spec a j), (Nat.eqb_spec b i), (Nat.eqb_spec b j); intro; subst; congruence.
  - intro k. destruct (Nat.eqb_spec k j) as [->|Nj].
    + rewrite nth_error_upd_eq by (rewrite upd_length; auto). destruct (Nat.eqb_spec j i) as [->|]; congruence.
    + rewrite nth_error_upd_neq by auto. destruct (Nat.eqb_spec k i) as [->|Ni]; [rewrite nth_error_upd_eq by auto; congruence|rewrite nth_error_upd_neq by auto; reflexivity].
Qed.

Lemma swap4_ok {A} (l : list A) a b : a + 3 < length l -> b + 3 < length l -> exists l', swap4 l a b = Some l' /\ Permutation l l'.
Proof.
  intros Ha Hb. unfold swap4. destruct (swap_ok l a b) as (l1 & -> & P1); [lia..|]. pose proof (Permutation_length P1).
  destruct (swap_ok l1 (a + 1) (b + 1)) as (l2 & -> & P2); [lia..|]. pose proof (Permutation_length P2).
  destruct (swap_ok l2 (a + 2) (b + 2)) as (l3 & -> & P3); [lia..|]. pose proof (Permutation_length P3).
  destruct (swap_ok l3 (a + 3) (b + 3)) as (l4 & -> & P4); [lia..|]. exists l4. split; [reflexivity|]. etransitivity; [exact P1|]. etransitivity; [exact P2|]. etransitivity; [exact P3|exact P4].
Qed.

Lemma draw_le rnd k hi : draw rnd k hi <= hi.
Proof. unfold draw. pose proof (Nat.mod_upper_bound (rnd k) (S hi)). lia. Qed.

Lemma good_loop_ok {A} rnd hi r : forall k (l : list A), hi + 3 < length l -> exists l', good_loop rnd hi r k l = Some l' /\ Permutation l l'.
Proof.
  induction r as [|r IH]; intros k l H; cbn [good_loop]; [exists l; auto|].
  pose proof (draw_le rnd k hi). pose proof (draw_le rnd (S k) hi). destruct (swap4_ok l (draw rnd k hi) (draw rnd (S k) hi)) as (l1 & -> & P); [lia..|].
  pose proof (Permutation_length P). destruct (IH (S (S k)) l1) as (l2 & -> & P2); [lia|]. exists l2. split; [reflexivity|]. etransitivity; eauto.
Qed.
Lemma small_loop_ok {A} rnd hi r : forall k (l : list A), hi < length l -> exists l', small_loop rnd hi r k l = Some l' /\ Permutation l l'.
Proof.
  induction r as [|r IH]; intros k l H; cbn [small_loop]; [exists l; auto|].
  pose proof (draw_le rnd k hi). pose proof (draw_le rnd (S k) hi). destruct (swap_ok l (draw rnd k hi) (draw rnd (S k) hi)) as (l1 & -> & P); [lia..|].
  pose proof (Permutation_length P). destruct (IH (S (S k)) l1) as (l2 & -> & P2); [lia|]. exists l2. split; [reflexivity|]. etransitivity; eauto.
Qed.

(** every stream of draws: no index is out of range (the result is not [None]) and the result is a permutation *)
Theorem C44_good_small : forall {A} rnd (l : list A), exists l', permutate_good_small rnd l = Some l' /\ Permutation l l'.
Proof. intros A rnd l. unfold permutate_good_small. destruct (Nat.ltb_spec (length l) 2); [exists l; auto|]. apply small_loop_ok. lia. Qed.
Print Assumptions C44_good_small.

Theorem C44_good : forall {A} rnd (l : list A), exists l', permutate_good rnd l = Some l' /\ Permutation l l'.
Proof. intros A rnd l. unfold permutate_good. destruct (Nat.ltb_spec (length l) 10); [apply C44_good_small|]. apply good_loop_ok. lia. Qed.
Print Assumptions C44_good.

Theorem C44_good1 : forall {A} rnd (l : list A), exists l', permutate_good1 rnd l = Some l' /\ Permutation l l'.
Proof. intros A rnd l. unfold permutate_good1. destruct (Nat.ltb_spec (length l) 4); [exists l; auto|]. apply good_loop_ok. lia. Qed.
Print Assumptions C44_good1.

Theorem C44_fast : forall {A} rnd (l : list A), exists l', permutate_fast rnd l = Some l' /\ Permutation l l'.
Proof.
  intros A rnd l. unfold permutate_fast. destruct (Nat.ltb_spec (length l) 10) as [|L]; [exists l; auto|].
  assert (G : forall is (l1 : list A), length l1 = length l -> (forall i, In i is -> i < length l - 4) -> exists l', fast_loop rnd (length l - 4) is l1 = Some l' /\ Permutation l1 l').
  { induction is as [|i is IH]; intros l1 E H; cbn [fast_loop]; [exists l1; auto|]. pose proof (H i (or_introl eq_refl)).
    pose proof (Nat.mod_upper_bound (i + draw rnd i 20) (length l - 4)). destruct (swap4_ok l1 i ((i + draw rnd i 20) mod (length l - 4))) as (l2 & -> & P2); [lia..|].
    pose proof (Permutation_length P2). destruct (IH l2) as (l3 & -> & P3); [lia|intros; apply H; right; auto|]. exists l3. split; [reflexivity|]. etransitivity; eauto. }
  apply G; [reflexivity|]. intros i Hi. apply in_seq in Hi. lia.
Qed.
Print Assumptions C44_fast.

Theorem C44_local : forall {A} (shuf : nat -> list A -> list A) (l : list A), (forall i x, Permutation x (shuf i x)) -> Permutation l (permutate_local shuf l) /\
  (* only inside the pieces of 128 entries *)
  forall i, i * 128 <= length l -> Permutation (firstn 128 (skipn (i * 128) l)) (firstn 128 (skipn (i * 128) (permutate_local shuf l))).
Proof.
  intros A shuf l HS. unfold permutate_local.
  assert (G : forall f j l1, exists l2, local_loop f shuf (j * 128) l1 = l2 /\ Permutation l1 l2 /\ length l2 = length l1 /\ (forall i, i < j -> firstn 128 (skipn (i * 128) l2) = firstn 128 (skipn (i * 128) l1)) /\
     (forall i, Permutation (firstn 128 (skipn (i * 128) l1)) (firstn 128 (skipn (i * 128) l2)))).
  { induction f as [|f IH]; intros j l1; cbn [local_loop]; [exists l1; repeat split; auto|].
    destruct (Nat.ltb_spec (j * 128) (length l1)) as [L|L]; [|exists l1; repeat split; auto].
    set (P := firstn (j * 128) l1). set (M := firstn 128 (skipn (j * 128) l1)). set (R := skipn (j * 128 + 128) l1). set (l2 := P ++ shuf (j * 128) M ++ R).
    assert (LP : length P = j * 128) by (apply firstn_length_le; lia).
    assert (LM : length (shuf (j * 128) M) = length M) by (symmetry; apply Permutation_length, HS).
    assert (E1 : l1 = P ++ M ++ R).
    { unfold P, M, R. rewrite <- (firstn_skipn (j * 128) l1) at 1. f_equal. rewrite <- (firstn_skipn 128 (skipn (j * 128) l1)) at 1. f_equal.
      clear. generalize (j * 128) as a. revert l1. generalize 128 as b. intros b l1 a. revert l1. induction a as [|a IHa]; intro l1; [reflexivity|]. destruct l1; [cbn; destruct b; reflexivity|]. cbn [skipn plus]. apply IHa. }
    assert (P12 : Permutation l1 l2) by (rewrite E1; unfold l2; apply Permutation_app_head, Permutation_app_tail, HS).
    assert (PC : forall i, (i < j -> firstn 128 (skipn (i * 128) l2) = firstn 128 (skipn (i * 128) l1)) /\ Permutation (firstn 128 (skipn (i * 128) l1)) (firstn 128 (skipn (i * 128) l2))).
    { intro i. destruct (Nat.lt_trichotomy i j) as [H|[->|H]].
      - assert (X : firstn 128 (skipn (i * 128) l2) = firstn 128 (skipn (i * 128) l1)); [|rewrite X; auto].
        rewrite E1. unfold l2. rewrite !skipn_app, !firstn_app, skipn_length, LP.
        replace (128 - (j * 128 - i * 128)) with 0 by lia. cbn [firstn]. rewrite !app_nil_r. reflexivity.
      - split; [lia|]. rewrite E1. unfold l2. rewrite !skipn_app, LP, Nat.sub_diag, (skipn_all2 P) by lia. cbn [skipn app]. rewrite !firstn_app, LM.
        rewrite (firstn_all2 M), (firstn_all2 (shuf _ M)) by (rewrite ?LM; apply firstn_le_length). apply Permutation_app_tail. apply HS.
      - split; [lia|]. assert (X : skipn (i * 128) l1 = skipn (i * 128) l2); [|rewrite X; auto].
        rewrite E1. unfold l2. rewrite !skipn_app, LP, LM. f_equal. f_equal.
        rewrite !skipn_all2; [reflexivity|rewrite LM|]; unfold M; rewrite firstn_length; lia. }
    destruct (IH (S j) l2) as (l3 & E & P3 & L3 & Q1 & Q2). replace (S j * 128) with (j * 128 + 128) in E by lia. exists l3. split; [exact E|]. split; [etransitivity; eauto|].
    split; [rewrite L3; symmetry; apply Permutation_length; auto|]. split.
    - intros i Hi. rewrite Q1 by lia. apply PC. auto.
    - intro i. etransitivity; [apply PC|apply Q2]. }
  destruct (G (S (length l)) 0 l) as (l2 & E & P & _ & _ & Q). cbn [Nat.mul] in E. rewrite E. split; [auto|]. intros i _. apply Q.
Qed.
Print Assumptions C44_local.

(** circular_permutation: whenever the inner loop gets a different second position, and the start is the
    identity, the result is a permutation of 0..n-1 *)
Theorem C44_circular : forall rnd fuel l l', circular_permutation fuel rnd l = Some l' -> 2 <= length l -> Permutation (seq 0 (length l)) l'.
Proof.
  intros rnd fuel l l' H L. unfold circular_permutation in H. destruct (Nat.ltb_spec (length l) 2); [lia|].
  assert (G : forall r k l1, circular_loop fuel rnd (length l - 1) r k l1 = Some l' -> Permutation l1 l').
  { induction r as [|r IH]; intros k l1 E; cbn [circular_loop] in E; [injection E as ->; auto|].
    destruct (draw_other _ _ _ _ _) as [[b k']|]; [|discriminate]. destruct (nth_error l1 _) as [x|] eqn:Ex; [|discriminate]. destruct (nth_error l1 b) as [y|] eqn:Ey; [|discriminate].
    destruct (negb _ && negb _); [|eauto]. destruct (swap l1 _ b) as [l2|] eqn:Es; [|discriminate].
    destruct (swap_ok l1 (draw rnd k (length l - 1)) b) as (l3 & E3 & P3); [apply nth_error_Some; congruence..|]. rewrite E3 in Es. injection Es as ->. etransitivity; [exact P3|eauto]. }
  eapply G; eauto.
Qed.
Print Assumptions C44_circular.

(** the callers ask for a random order of the vertices: with [init] every vertex occurs exactly once *)
Theorem C44_init : forall rnd (l : list nat), let n := length l in
  (exists l', permutate_good rnd (init_vec true l) = Some l' /\ NoDup l' /\ forall v, In v l' <-> v < n) /\
  (exists l', permutate_fast rnd (init_vec true l) = Some l' /\ NoDup l' /\ forall v, In v l' <-> v < n) /\
  (forall shuf, (forall i x, Permutation x (shuf i x)) -> let l' := permutate_local shuf (init_vec true l) in NoDup l' /\ forall v, In v l' <-> v < n).
Proof.
  intros rnd l n. assert (G : forall l', Permutation (init_vec true l) l' -> NoDup l' /\ forall v, In v l' <-> v < n).
  { intros l' P. unfold init_vec in P. split; [apply (Permutation_NoDup P), seq_NoDup|]. intro v. split; intro H.
    - apply (Permutation_in _ (Permutation_sym P)), in_seq in H. unfold n. lia.
    - apply (Permutation_in _ P), in_seq. unfold n in H. lia. }
  split; [|split].
  - destruct (C44_good rnd (init_vec true l)) as (l' & E & P). exists l'. split; [exact E|apply G; auto].
  - destruct (C44_fast rnd (init_vec true l)) as (l' & E & P). exists l'. split; [exact E|apply G; auto].
  - intros shuf HS. apply G, C44_local, HS.
Qed.
Print Assumptions C44_init.

(* concrete runs *)
Example c44_run :
  permutate_good (fun k => k * k + 3 * k) (seq 10 12) = Some [17; 13; 11; 12; 14; 16; 15; 10; 18; 19; 20; 21] /\
  permutate_good (fun k => k * k / 3) [5; 6; 7; 8] = Some [8; 5; 7; 6] /\
  permutate_good1 (fun k => k * k / 3) [5; 6; 7; 8; 9; 10] = Some [8; 9; 5; 6; 7; 10] /\
  permutate_fast (fun k => 5 * k + 2) (seq 0 11) = Some [4; 5; 0; 3; 7; 8; 1; 9; 2; 6; 10] /\
  circular_permutation 3 (fun k => 5 * k + k / 2) [0; 0; 0; 0; 0] = Some [1; 2; 3; 4; 0] /\
  permutate_local (fun _ => @rev nat) (init_vec true [7; 7; 7; 7]) = [3; 2; 1; 0].
Proof. vm_compute. repeat split. Qed.
