(* P_ParContract.v - proofs about M_ParContract: the first loop of the parallel contraction and the contested edge. *)
From Verif Require Import P_Cut.
From Verif Require Export M_ParContract.

(** ** keys *)
Definition small (num : nat) : Prop := (N.of_nat num <= 2 ^ 32)%N.
Lemma key_pair num a b : small num -> a < b -> b < num -> pair_of (key_of b a) = (a, b) /\ pair_of (key_of a b) = (a, b) /\ (0 < key_of b a)%N.
Proof.
  unfold small, key_of, pair_of. intros S L B. change (2 ^ 32)%N with 4294967296%N in *. change (2 ^ 64)%N with (4294967296 * 4294967296)%N.
  destruct (Nat.ltb_spec a b) as [_|]; [|lia]. destruct (Nat.ltb_spec b a) as [|_]; [lia|].
  rewrite (N.mod_small (N.of_nat a * 4294967296 + N.of_nat b)) by nia. rewrite (N.add_comm (_ * _)), N.div_add, N.mod_add by lia. rewrite (N.div_small (N.of_nat b)), N.add_0_l by lia. rewrite !N.mod_small by lia. rewrite !Nnat.Nat2N.id. repeat split. lia.
Qed.

(** ** tables *)
Lemma has_In k tab : has k tab = true <-> In k (map fst tab).
Proof. unfold has. rewrite existsb_exists, in_map_iff. split; [intros (e & I & Q); apply N.eqb_eq in Q; eauto|intros (e & Q & I); exists e; split; [auto|apply N.eqb_eq; auto]]. Qed.
Lemma tget_out k tab : ~ In k (map fst tab) -> tget k tab = 0%N.
Proof. unfold tget. intro H. destruct (find _ tab) as [e|] eqn:E; [|auto]. apply find_some in E as [I Q]. apply N.eqb_eq in Q. exfalso. apply H. subst k. apply in_map. auto. Qed.
Lemma tadd_keys k w tab : map fst (tadd k w tab) = map fst tab.
Proof. induction tab as [|e tab IH]; [reflexivity|]. cbn. destruct (fst e =? k)%N; cbn; f_equal; auto. Qed.
Lemma tadd_get k w k' tab : has k tab = true -> tget k' (tadd k w tab) = (tget k' tab + if (k =? k')%N then w else 0)%N.
Proof.
  unfold tget. induction tab as [|[a x] tab IH]; intro H; [discriminate H|]. unfold has in H. cbn [existsb fst] in H. cbn [tadd map find fst]. destruct (N.eqb_spec a k) as [->|Q]; cbn [fst].
  - destruct (N.eqb_spec k k') as [->|Q']; cbn [snd]; [reflexivity|]. rewrite N.add_0_r. clear IH H. induction tab as [|[b y] tab IH]; [reflexivity|]. cbn [map find fst]. destruct (N.eqb_spec b k) as [->|]; cbn [fst]; destruct (N.eqb_spec k k'); try contradiction; auto. destruct (b =? k')%N; auto.
  - cbn [orb] in H. destruct (N.eqb_spec a k') as [->|Q']; cbn [snd]; [destruct (N.eqb_spec k k'); [congruence|lia]|]. apply IH. exact H.
Qed.
Lemma tapp_get k w k' tab : ~ In k (map fst tab) -> tget k' (tab ++ [(k, w)]) = (tget k' tab + if (k =? k')%N then w else 0)%N.
Proof.
  unfold tget. induction tab as [|[a x] tab IH]; intro H; cbn [app find fst].
  - destruct (k =? k')%N; reflexivity.
  - destruct (N.eqb_spec a k') as [->|Q]; cbn [snd]; [destruct (N.eqb_spec k k') as [->|]; [exfalso; apply H; left; auto|lia]|]. apply IH. intro I. apply H. right. auto.
Qed.

(** ** one place of a list of lists *)
Lemma split_at {A} (l : list A) i d : i < length l -> exists l1 l2, l = l1 ++ nth i l d :: l2 /\ length l1 = i /\ forall x, upd l i x = l1 ++ x :: l2.
Proof.
  revert i. induction l as [|a l IH]; intros [|i] H; cbn in H; try lia; [exists [], l; auto|]. destruct (IH i) as (l1 & l2 & E & L & U); [lia|]. exists (a :: l1), l2. cbn. split; [f_equal; exact E|]. split; [lia|]. intro x. rewrite U. reflexivity.
Qed.
Lemma flat_upd {A B} (f : A -> list B) l i d : i < length l -> exists rest, Permutation (flat_map f l) (f (nth i l d) ++ rest) /\ forall x, Permutation (flat_map f (upd l i x)) (f x ++ rest).
Proof.
  intro H. destruct (split_at l i d H) as (l1 & l2 & E & _ & U). exists (flat_map f l1 ++ flat_map f l2). assert (Q : forall x, Permutation (flat_map f (l1 ++ x :: l2)) (f x ++ flat_map f l1 ++ flat_map f l2)).
  { intro x. rewrite flat_map_app. cbn [flat_map]. apply Permutation_app_swap_app. }
  split; [rewrite E at 1; apply Q|intro x; rewrite U; apply Q].
Qed.
Lemma concat_upd {A} (l : list (list A)) i : i < length l -> exists rest, Permutation (concat l) (nth i l [] ++ rest) /\ forall x, Permutation (concat (upd l i x)) (x ++ rest).
Proof.
  intro H. destruct (flat_upd (fun x : list A => x) l i [] H) as (rest & A1 & A2). exists rest. rewrite !flat_map_concat_map, map_id in A1. split; [exact A1|]. intro x. specialize (A2 x). rewrite flat_map_concat_map, map_id in A2. exact A2.
Qed.
Lemma nth_nil_lt {A} (l : list (list A)) i x r : nth i l [] = x :: r -> i < length l.
Proof. intro H. destruct (Nat.lt_ge_cases i (length l)) as [|Q]; [auto|]. rewrite nth_overflow in H by auto. discriminate H. Qed.

(** ** the first loop *)
Definition touches (v : nat) (k : N) : bool := (fst (pair_of k) =? v) || (snd (pair_of k) =? v).
Definition ikey (x : item) : N := key_of (fst (fst x)) (snd (fst x)).
Definition iw (k : N) (x : item) : N := if (ikey x =? k)%N then snd x else 0%N.
Definition edge_key (num : nat) (k : N) : Prop := exists a b, a < b /\ b < num /\ k = key_of b a.
Lemma bump_nth l a v : a < length l -> nth v (bump l a) 0 = nth v l 0 + (if v =? a then 1 else 0).
Proof. intro H. unfold bump. rewrite nth_upd. destruct (Nat.eqb_spec v a) as [->|]; cbn [andb]; [destruct (Nat.ltb_spec a (length l)); lia|lia]. Qed.
Lemma bump_len l a : length (bump l a) = length l. Proof. apply upd_length. Qed.
Lemma bump2 num l k a b : small num -> length l = num -> a < b -> b < num -> k = key_of b a -> forall v x y, (x = a /\ y = b) \/ (x = b /\ y = a) -> nth v (bump (bump l x) y) 0 = nth v l 0 + (if touches v k then 1 else 0).
Proof.
  intros S L A B -> v x y Q. destruct (key_pair num a b S A B) as (P & _ & _). unfold touches. rewrite P. cbn [fst snd]. rewrite !bump_nth by (rewrite ?bump_len; lia).
  rewrite (Nat.eqb_sym a v), (Nat.eqb_sym b v). destruct Q as [[-> ->]|[-> ->]]; destruct (Nat.eqb_spec v a), (Nat.eqb_spec v b); cbn [orb]; lia.
Qed.

Section One.
Context (num : nat) (S : small num) (ce : N) (items : list item) (HI : forall p ct w, In (p, ct, w) items -> ct < p /\ p < num).

Record inv1 (s : st1) : Prop := {
  i_sub : incl (concat (h_q s)) items;
  i_nd : NoDup (map fst (h_tab s));
  i_ks : Permutation (concat (h_keys s)) (map fst (h_tab s));
  i_lk : length (h_keys s) = length (h_q s); i_lc : length (h_cw s) = length (h_q s);
  i_ce : ~ In ce (map fst (h_tab s));
  i_w : forall k, k <> ce -> (tget k (h_tab s) + sumN (iw k) (concat (h_q s)) = sumN (iw k) items)%N;
  i_c : (fold_right N.add 0 (h_cw s) + sumN (iw ce) (concat (h_q s)) = sumN (iw ce) items)%N;
  i_ld : length (h_deg s) = num;
  i_d : forall v, nth v (h_deg s) 0 = length (filter (touches v) (map fst (h_tab s)));
  i_e : forall k, In k (map fst (h_tab s)) -> edge_key num k }.

Lemma sum_upd (l : list N) i w : i < length l -> fold_right N.add 0%N (upd l i (nth i l 0 + w)%N) = (fold_right N.add 0%N l + w)%N.
Proof. revert i. induction l as [|x l IH]; intros [|i] H; cbn in H; try lia; cbn [upd nth fold_right]; [lia|]. rewrite IH by lia. lia. Qed.

Lemma step1_ok s i : inv1 s -> exists s', step1 ce s i = Some s' /\ inv1 s' /\ length (h_q s') = length (h_q s).
Proof.
  intros [A B C D1 D2 E F G H K L]. unfold step1. destruct (nth i (h_q s) []) as [|[[p ct] w] r] eqn:Q; [exists s; split; [reflexivity|]; split; [constructor; auto|auto]|].
  assert (Li : i < length (h_q s)) by (eapply nth_nil_lt; eauto). destruct (concat_upd (h_q s) i Li) as (rest & R1 & R2). rewrite Q in R1. specialize (R2 r).
  assert (Ix : In (p, ct, w) items) by (apply A; eapply Permutation_in; [symmetry; exact R1|left; auto]). destruct (HI _ _ _ Ix) as [Lp Pn].
  assert (Sub : incl (concat (upd (h_q s) i r)) items). { intros x I. apply A. eapply Permutation_in; [symmetry; exact R1|]. right. eapply Permutation_in; [exact R2|exact I]. }
  assert (W : forall k, sumN (iw k) (concat (h_q s)) = (iw k (p, ct, w) + sumN (iw k) (concat (upd (h_q s) i r)))%N). { intro k. rewrite (sumN_perm _ _ _ R1), (sumN_perm _ _ _ R2). reflexivity. }
  unfold iw in W at 2. cbn [ikey fst snd] in W. set (k0 := key_of p ct) in *. destruct (N.eqb_spec k0 ce) as [Ek|Nk].
  - eexists. split; [reflexivity|]. split; [|cbn [h_q]; apply upd_length]. constructor; cbn [h_q h_tab h_deg h_keys h_cw]; auto; rewrite ?upd_length; auto.
    + intros k N. rewrite <- (F k N), W. unfold ikey. cbn [fst snd]. fold k0. destruct (N.eqb_spec k0 k); [congruence|lia].
    + rewrite <- G, W. unfold ikey. cbn [fst snd]. fold k0. rewrite sum_upd by lia. destruct (N.eqb_spec k0 ce); [lia|contradiction].
  - destruct (has k0 (h_tab s)) eqn:Hk.
    + eexists. split; [reflexivity|]. split; [|cbn [h_q]; apply upd_length]. constructor; cbn [h_q h_tab h_deg h_keys h_cw]; rewrite ?tadd_keys, ?upd_length; auto.
      * intros k N. rewrite <- (F k N), W, tadd_get by auto. unfold ikey. cbn [fst snd]. fold k0. lia.
      * rewrite <- G, W. unfold ikey. cbn [fst snd]. fold k0. destruct (N.eqb_spec k0 ce); [contradiction|lia].
    + assert (Nh : ~ In k0 (map fst (h_tab s))) by (intro I; apply has_In in I; congruence).
      destruct (Nat.ltb_spec p (length (h_deg s))); [|lia]. destruct (Nat.ltb_spec ct (length (h_deg s))); [|lia]. cbn [andb].
      eexists. split; [reflexivity|]. split; [|cbn [h_q]; apply upd_length]. constructor; cbn [h_q h_tab h_deg h_keys h_cw]; rewrite ?upd_length, ?bump_len; auto; try rewrite map_app; cbn [map fst].
      * apply (Permutation_NoDup (l := k0 :: map fst (h_tab s))); [apply Permutation_cons_append|constructor; auto].
      * assert (Lk : i < length (h_keys s)) by lia. destruct (concat_upd (h_keys s) i Lk) as (rk & K1 & K2). rewrite K2, <- app_assoc. etransitivity; [|apply Permutation_app_tail; exact C]. rewrite K1, <- app_assoc. apply Permutation_app_head. cbn. apply Permutation_cons_append.
      * intro I. apply in_app_iff in I as [I|[I|[]]]; [auto|congruence].
      * intros k N. rewrite <- (F k N), W, tapp_get by auto. unfold ikey. cbn [fst snd]. fold k0. lia.
      * rewrite <- G, W. unfold ikey. cbn [fst snd]. fold k0. destruct (N.eqb_spec k0 ce); [contradiction|lia].
      * intro v. rewrite (bump2 num (h_deg s) k0 ct p S H Lp Pn eq_refl) by auto. rewrite filter_app, app_length, K. cbn [filter]. destruct (touches v k0); cbn [length]; lia.
      * intros k I. apply in_app_iff in I as [I|[<-|[]]]; [auto|]. exists ct, p. auto.
Qed.
Lemma run1_ok : forall sched s, inv1 s -> exists s', run1 ce s sched = Some s' /\ inv1 s' /\ length (h_q s') = length (h_q s).
Proof. induction sched as [|i sched IH]; intros s I; cbn [run1]; [exists s; auto|]. destruct (step1_ok s i I) as (s1 & -> & I1 & L1). destruct (IH s1 I1) as (s' & E & I' & L'). exists s'. split; [exact E|]. split; [auto|lia]. Qed.

(** what the second loop starts from *)
Record ready (tab : list (N * N)) (deg : list nat) (keys : list (list N)) : Prop := {
  r_nd : NoDup (map fst tab); r_ks : Permutation (concat keys) (map fst tab); r_w : forall k, tget k tab = sumN (iw k) items;
  r_ld : length deg = num; r_d : forall v, nth v deg 0 = length (filter (touches v) (map fst tab)); r_e : forall k, In k (map fst tab) -> edge_key num k }.
Lemma settle_ok b0 b1 j s : b0 < num -> b1 < num -> (ce = 0%N \/ ce = key_of b1 b0) -> inv1 s -> done1 s -> j < length (h_q s) ->
  exists s', settle ce b0 b1 j s = Some s' /\ ready (h_tab s') (h_deg s') (h_keys s') /\ length (h_keys s') = length (h_q s).
Proof.
  intros B0 B1 Hce [A B C D1 D2 E F G H K L] Dn Hj. assert (Z : concat (h_q s) = []). { unfold done1 in Dn. clear -Dn. induction (h_q s) as [|x q IH]; [reflexivity|]. cbn [concat]. pose proof (Dn 0) as D0. cbn in D0. subst x. apply IH. intro i. apply (Dn (Datatypes.S i)). }
  rewrite Z in G. cbn [sumN] in G. rewrite N.add_0_r in G. unfold settle. rewrite G. assert (E' : has ce (h_tab s) = false) by (destruct (has ce (h_tab s)) eqn:Q; [apply has_In in Q; contradiction|auto]). rewrite E'.
  destruct ((0 <? ce)%N && (0 <? sumN (iw ce) items)%N) eqn:T.
  - apply andb_true_iff in T as [T1 T2]. apply N.ltb_lt in T1, T2. destruct Hce as [->|Hce]; [lia|].
    assert (exists x, In x items /\ ikey x = ce) as ([[p ct] w] & Ix & Kx).
    { assert (P : sumN (iw ce) items <> 0%N) by lia. clear -P. induction items as [|x l IH]; [cbn in P; lia|]. cbn [sumN] in P. unfold iw in P at 1. destruct (N.eqb_spec (ikey x) ce); [exists x; split; [left; auto|auto]|]. destruct IH as (y & I & Q); [lia|]. exists y. split; [right; auto|auto]. }
    destruct (HI _ _ _ Ix) as [Lp Pn]. unfold ikey in Kx. cbn [fst snd] in Kx.
    assert (Q : (b0 = ct /\ b1 = p) \/ (b0 = p /\ b1 = ct)).
    { destruct (key_pair num ct p S Lp Pn) as (P1 & _ & P3). rewrite Kx in P1, P3. destruct (Nat.lt_trichotomy b0 b1) as [Q|[Q|Q]].
      - destruct (key_pair num b0 b1 S Q B1) as (P4 & _ & _). rewrite <- Hce, P1 in P4. injection P4 as -> ->. auto.
      - exfalso. rewrite Q in Hce. unfold key_of in Hce. rewrite Nat.ltb_irrefl in Hce. unfold small in S. unfold pair_of in P1. rewrite Hce in P1. change (2 ^ 64)%N with (2 ^ 32 * 2 ^ 32)%N in P1. set (M := (2 ^ 32)%N) in *. assert (HM : M = 4294967296%N) by reflexivity.
        rewrite (N.mod_small (N.of_nat b1 * M + N.of_nat b1)) in P1 by nia. rewrite (N.add_comm (_ * _)), N.div_add, N.mod_add, N.div_small, N.add_0_l, !N.mod_small in P1 by lia. injection P1 as P1 P2. lia.
      - destruct (key_pair num b1 b0 S Q B0) as (_ & P4 & _). rewrite <- Hce, P1 in P4. injection P4 as -> ->. auto. }
    destruct (Nat.ltb_spec b0 (length (h_deg s))); [|lia]. destruct (Nat.ltb_spec b1 (length (h_deg s))); [|lia]. cbn [andb]. eexists. split; [reflexivity|]. cbn [h_tab h_deg h_keys]. rewrite upd_length. split; [|auto]. constructor; try rewrite map_app; cbn [map fst]; rewrite ?bump_len; auto.
    + apply (Permutation_NoDup (l := ce :: map fst (h_tab s))); [apply Permutation_cons_append|constructor; auto].
    + assert (Lk : j < length (h_keys s)) by lia. destruct (concat_upd (h_keys s) j Lk) as (rk & K1 & K2). rewrite K2, <- app_assoc. etransitivity; [|apply Permutation_app_tail; exact C]. rewrite K1, <- app_assoc. apply Permutation_app_head. cbn. apply Permutation_cons_append.
    + intro k. rewrite tapp_get by auto. destruct (N.eqb_spec ce k) as [<-|N]; [rewrite tget_out by auto; lia|]. rewrite <- (F k) by auto. rewrite Z. cbn [sumN]. lia.
    + intro v. rewrite (bump2 num (h_deg s) ce ct p S H Lp Pn (eq_sym Kx)) by tauto. rewrite filter_app, app_length, K. cbn [filter]. destruct (touches v ce); cbn [length]; lia.
    + intros k I. apply in_app_iff in I as [I|[<-|[]]]; [auto|]. exists ct, p. auto.
  - exists s. split; [reflexivity|]. split; [|auto]. constructor; auto. intro k. destruct (N.eq_dec k ce) as [->|N]; [|rewrite <- (F k) by auto; rewrite Z; cbn [sumN]; lia]. rewrite tget_out by auto. apply andb_false_iff in T as [T|T]; [|apply N.ltb_ge in T; lia].
    apply N.ltb_ge in T. symmetry. apply sumN_zero. intros [[p ct] w] I. destruct (HI _ _ _ I) as [Lp Pn]. destruct (key_pair num ct p S Lp Pn) as (_ & _ & P). unfold iw, ikey. cbn [fst snd]. destruct (N.eqb_spec (key_of p ct) ce); [lia|auto].
Qed.
End One.
