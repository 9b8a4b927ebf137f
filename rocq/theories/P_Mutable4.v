(* P_Mutable4.v - proofs about mutable_graph: the merging phases of contractVertexSet. *)
From Verif Require Import SpecCut P_Cut P_Mutable P_Mutable2 P_Mutable3 M_Mutable.

Definition tgt_of (R : list (list half)) (a b : nat) : option nat := option_map (fun h => fst (fst h)) (slot R a b).

Lemma tgt_moved D v l e a b R R' : slot R' a b = option_map (moved D v l e a b) (slot R a b) -> tgt_of R' a b = tgt_of R a b.
Proof. intro H. unfold tgt_of. rewrite H. destruct (slot R a b); reflexivity. Qed.

Section Merge.
Variable inS : nat -> bool.
Variable first : nat.

Definition rep (t : nat) : nat := if inS t then first else t.
Definition into (T : nat -> nat -> option nat) (n j : nat) : bool := match T n j with Some t => inS t | None => false end.
Definition cnt_in (T : nat -> nat -> option nat) (n k c : nat) : N := sumN (fun j => if into T n j then 1%N else 0%N) (seq k c).

Definition minv (m : list (option (nat * nat))) (R : list (list half)) : Prop :=
  forall t rev ed2, nth t m None = Some (rev, ed2) -> exists w, slot R first ed2 = Some (t, w, rev).

(** T, len: targets and lengths of the rows of the merged vertices *)
Record minvr (n0 : nat) (T : nat -> nat -> option nat) (len : nat -> nat) (D : dead) (R : list (list half)) (deg : list N)
    (m : list (option (nat * nat))) : Prop := {
  mi_n : length R = n0;
  mi_link : linked D R;
  mi_map : minv m R;
  mi_mlen : length m = n0;
  mi_out : forall a b, inS a = false -> D a b = false;
  mi_first : forall b, D first b = false;
  mi_dead : forall a b t, inS a = true -> a <> first -> T a b = Some t -> inS t = true -> D a b = true;
  mi_T : forall a b, inS a = true -> a <> first -> tgt_of R a b = T a b;
  mi_len : forall a, inS a = true -> a <> first -> rl R a = len a;
  mi_dlen : length deg = n0;
  mi_dfirst : nth first deg 0%N = ls D R fd first;
  mi_dout : forall u, inS u = false -> u < n0 -> nth u deg 0%N = ls D R fd u }.

Hypothesis first_in : inS first = true.

Definition ssum (n0 : nat) (D : dead) R f : N := bsum n0 (fun u => if inS u then ls D R f u else 0%N).

Lemma rep_out t : inS t = false -> rep t = t.
Proof. intro H. unfold rep. rewrite H. reflexivity. Qed.

(** the sums kept by a merging step *)
Definition same_sums (n0 : nat) (D D' : dead) (R R' : list (list half)) : Prop :=
  (forall f, lin f -> ssum n0 D' R' f = ssum n0 D R f) /\
  (forall f u, lin f -> inS u = false -> ls D' R' (fun t w => f (rep t) w) u = ls D R (fun t w => f (rep t) w) u).

Lemma step_sums n0 D D' R R' n t w : n < n0 -> first < n0 -> inS n = true -> inS t = false ->
  (forall f u, lin f -> (ls D' R' f u + pairf n t w f u = ls D R f u + pairf first t w f u)%N) ->
  same_sums n0 D D' R R'.
Proof.
  intros Hn Hf In It C. split.
  - intros f Lf. unfold ssum.
    pose proof (bsum_single n0 (fun _ => f t w) n Hn) as Q1. pose proof (bsum_single n0 (fun _ => f t w) first Hf) as Q2. cbn beta in Q1, Q2.
    assert (E : (bsum n0 (fun u => if inS u then ls D' R' f u else 0%N) + bsum n0 (fun x => if Nat.eqb x n then f t w else 0%N)
             = bsum n0 (fun u => if inS u then ls D R f u else 0%N) + bsum n0 (fun x => if Nat.eqb x first then f t w else 0%N))%N); [|lia].
    rewrite <- !bsum_add. apply bsum_ext. intros u _. specialize (C f u Lf). unfold pairf in C.
    destruct (Nat.eqb_spec u t) as [Eu|Nt]; [subst u|].
    + rewrite It. destruct (Nat.eqb_spec t n); [congruence|]. destruct (Nat.eqb_spec t first); [congruence|]. reflexivity.
    + destruct (inS u) eqn:Iu.
      * lia.
      * destruct (Nat.eqb_spec u n); [congruence|]. destruct (Nat.eqb_spec u first); [congruence|]. reflexivity.
  - intros f u Lf Iu. assert (Lf' : lin (fun t w => f (rep t) w)) by (intros x a b; apply Lf).
    specialize (C _ u Lf'). unfold pairf in C.
    destruct (Nat.eqb_spec u n); [congruence|]. destruct (Nat.eqb_spec u first); [congruence|].
    assert (Rn : rep n = rep first) by (unfold rep; rewrite In, first_in; reflexivity). rewrite Rn in C. lia.
Qed.


Lemma merge_vertex_ok n0 T len n cnt : forall R deg ne m k D rem,
  minvr n0 T len D R deg m -> inS n = true -> n <> first -> n < n0 -> first < n0 -> k + cnt = len n ->
  (forall j, j < k -> D n j = true) -> (forall j, k <= j < len n -> D n j = into T n j) ->
  ne = (bsum n0 (ls D R fc) + cnt_in T n k cnt + rem)%N ->
  exists m' R' deg' ne' D', merge_vertex cnt inS first n k m (R, deg, ne) = Some (m', (R', deg', ne')) /\
    minvr n0 T len D' R' deg' m' /\ (forall j, j < len n -> D' n j = true) /\ (forall a b, a <> n -> D' a b = D a b) /\
    ne' = (bsum n0 (ls D' R' fc) + rem)%N /\ same_sums n0 D D' R R'.
Proof.
  induction cnt as [|cnt IH]; intros R deg ne m k D rem I In Nf Hn Hf Hk Dlt Dge NE.
  - exists m, R, deg, ne, D. split; [reflexivity|]. split; [auto|]. split; [intros j Hj; apply Dlt; lia|]. split; [auto|].
    split; [rewrite NE; unfold cnt_in; simpl; lia|]. split; auto.
  - cbn [merge_vertex]. destruct (slot_some R n k) as (t & w & r & Sn).
    { rewrite (mi_len _ _ _ _ _ _ _ I n In Nf). lia. }
    rewrite Sn. assert (Tn : T n k = Some t) by (rewrite <- (mi_T _ _ _ _ _ _ _ I n k In Nf); unfold tgt_of; rewrite Sn; reflexivity).
    assert (INTO : into T n k = inS t) by (unfold into; rewrite Tn; reflexivity).
    destruct (inS t) eqn:It.
    + (* an edge inside the set *)
      assert (Dk : D n k = true) by (rewrite Dge by lia; auto).
      destruct (IH R deg (ne - 1)%N m (S k) D rem I In Nf Hn Hf ltac:(lia)) as (m' & R' & deg' & ne' & D' & E & I' & X).
      { intros j Hj. destruct (Nat.eq_dec j k) as [->|]; [auto|apply Dlt; lia]. }
      { intros j Hj. apply Dge. lia. }
      { rewrite NE. unfold cnt_in. cbn [seq sumN]. rewrite INTO. lia. }
      exists m', R', deg', ne', D'. auto.
    + assert (Dk : D n k = false) by (rewrite Dge by lia; auto).
      destruct (mi_link _ _ _ _ _ _ _ I n k t w r Sn Dk) as [Ht [Nt [_ St]]]. rewrite (mi_n _ _ _ _ _ _ _ I) in Ht.
      assert (Dt : forall b, D t b = false) by (intro b; apply (mi_out _ _ _ _ _ _ _ I); auto).
      assert (Ntf : t <> first) by congruence.
      assert (DX : forall j, j < S k -> dadd D n k n j = true).
      { intros j Hj. unfold dadd. destruct (Nat.eqb_spec j k) as [->|]; [rewrite Nat.eqb_refl, orb_true_r; reflexivity|]. rewrite Dlt by lia. reflexivity. }
      assert (DY : forall j, S k <= j < len n -> dadd D n k n j = into T n j).
      { intros j Hj. unfold dadd. destruct (Nat.eqb_spec j k); [lia|]. rewrite andb_false_r, orb_false_r. apply Dge. lia. }
      assert (DZ : forall a b, a <> n -> dadd D n k a b = D a b).
      { intros a b Na. unfold dadd. destruct (Nat.eqb_spec a n); [congruence|]. rewrite orb_false_r. reflexivity. }
      assert (CI : cnt_in T n k (S cnt) = cnt_in T n (S k) cnt) by (unfold cnt_in; cbn [seq sumN]; rewrite INTO; lia).
      destruct (nth t m None) as [[rev ed2]|] eqn:Em.
      * destruct (mi_map _ _ _ _ _ _ _ I t rev ed2 Em) as [w2 Sf].
        destruct (hit_ok D R first n k t w r ed2 rev w2 (mi_link _ _ _ _ _ _ _ I) Sn Dk Nf Sf (mi_first _ _ _ _ _ _ _ I ed2) Dt)
          as (R1 & R2 & R' & E1 & E2 & E3 & RT & N' & RL' & SL' & SF' & LK & C & CC).
        rewrite E1, E2, E3. change (length (nth t R2 [])) with (rl R2 t). rewrite RT.
        set (m1 := if rl R t - 1 =? rev then upd m t (Some (r, ed2)) else m).
        assert (M1 : minv m1 R').
        { intros t' rev' ed' Hm.
          assert (HH : t' <> t -> nth t' m None = Some (rev', ed')).
          { intro N. unfold m1 in Hm. destruct (_ =? rev); [rewrite nth_upd_neq in Hm|]; auto. }
          destruct (Nat.eq_dec t' t) as [->|N].
          - assert (Hlt : t < length m) by (rewrite (mi_mlen _ _ _ _ _ _ _ I); auto).
            unfold m1 in Hm. destruct (Nat.eqb_spec (rl R t - 1) rev) as [Er|Er].
            + rewrite nth_upd_eq in Hm by auto. injection Hm as <- <-. rewrite SF'. exists (w2 + w)%N.
              destruct (Nat.eqb_spec rev (rl R t - 1)); [reflexivity|congruence].
            + rewrite Em in Hm. injection Hm as <- <-. rewrite SF'. exists (w2 + w)%N.
              destruct (Nat.eqb_spec rev (rl R t - 1)); [congruence|reflexivity].
          - destruct (mi_map _ _ _ _ _ _ _ I t' rev' ed' (HH N)) as [w' S']. exists w'.
            rewrite SL'; [|auto|intros _ ->; rewrite Sf in S'; congruence]. rewrite S'. cbn. unfold moved. cbn.
            destruct (Nat.eqb_spec t' t); [congruence|]. rewrite andb_false_r. reflexivity. }
        assert (LM1 : length m1 = n0) by (unfold m1; destruct (_ =? rev); rewrite ?upd_length; apply (mi_mlen _ _ _ _ _ _ _ I)).
        destruct (IH R' (deg_add deg first w) (ne - 2)%N m1 (S k) (dadd D n k) rem) as (m' & R3 & deg' & ne' & D' & E & I' & X1 & X2 & X3 & X4); auto; try lia.
        { constructor; auto.
          - rewrite N'. apply (mi_n _ _ _ _ _ _ _ I).
          - intros a b Ha. rewrite DZ by congruence. apply (mi_out _ _ _ _ _ _ _ I). auto.
          - intro b. rewrite DZ by auto. apply (mi_first _ _ _ _ _ _ _ I).
          - intros a b t' Ha Na HT Ht'. unfold dadd. rewrite (mi_dead _ _ _ _ _ _ _ I a b t'); auto.
          - intros a b Ha Na. rewrite <- (mi_T _ _ _ _ _ _ _ I a b Ha Na). apply tgt_moved with (D := D) (v := t) (l := rl R t - 1) (e := r).
            apply SL'; congruence.
          - intros a Ha Na. rewrite RL'. destruct (Nat.eqb_spec a t); [congruence|]. apply (mi_len _ _ _ _ _ _ _ I); auto.
          - unfold deg_add. rewrite upd_length. apply (mi_dlen _ _ _ _ _ _ _ I).
          - unfold deg_add. rewrite nth_upd_eq by (rewrite (mi_dlen _ _ _ _ _ _ _ I); auto). rewrite (mi_dfirst _ _ _ _ _ _ _ I).
            specialize (C fd first lin_fd). unfold pairf in C. rewrite Nat.eqb_refl in C. destruct (Nat.eqb_spec first n); [congruence|].
            destruct (Nat.eqb_spec first t); [congruence|]. unfold fd in *. lia.
          - intros u Iu Hu. unfold deg_add. rewrite nth_upd_neq by congruence. rewrite (mi_dout _ _ _ _ _ _ _ I) by auto.
            specialize (C fd u lin_fd). unfold pairf in C. destruct (Nat.eqb_spec u n); [congruence|]. destruct (Nat.eqb_spec u first); [congruence|].
            destruct (u =? t); unfold fd in *; lia. }
        { rewrite NE, CI.
          assert (P : (bsum n0 (ls (dadd D n k) R' fc) + 2 = bsum n0 (ls D R fc))%N).
          { rewrite <- (pairf_count n0 n t w) by auto. rewrite <- bsum_add. apply bsum_ext. intros i _. apply CC. }
          lia. }
        exists m', R3, deg', ne', D'. split; [auto|]. split; [auto|]. split; [auto|].
        split; [intros a b Na; rewrite X2 by auto; apply DZ; auto|]. split; [auto|].
        destruct (step_sums n0 D (dadd D n k) R R' n t w Hn Hf In It C) as [S1 S2]. destruct X4 as [X4 X5].
        split; [intros f Lf; rewrite X4, S1; auto|intros f u Lf Iu; rewrite X5, S2; auto].
      * destruct (redirect_ok D R first n k t w r (mi_link _ _ _ _ _ _ _ I) Sn Dk Nf) as (R1 & R2 & E1 & E2 & N' & RL' & SL' & LK & C); auto.
        { rewrite (mi_n _ _ _ _ _ _ _ I). auto. } { apply (mi_first _ _ _ _ _ _ _ I). }
        change (length (nth first R [])) with (rl R first). rewrite E1, E2. set (R' := push R2 first (t, w, r)) in *.
        set (m1 := upd m t (Some (r, rl R first))).
        assert (C2 : forall f u, lin f -> (ls (dadd D n k) R' f u + pairf n t w f u = ls D R f u + pairf first t w f u)%N) by (intros; apply C).
        assert (SLf : forall b, slot R' first b = if b =? rl R first then Some (t, w, r) else slot R first b).
        { intro b. rewrite SL'. destruct (Nat.eqb_spec first t); [congruence|]. rewrite Nat.eqb_refl. reflexivity. }
        assert (M1 : minv m1 R').
        { intros t' rev' ed' Hm. rewrite SLf. destruct (Nat.eq_dec t' t) as [->|N].
          - unfold m1 in Hm. rewrite nth_upd_eq in Hm by (rewrite (mi_mlen _ _ _ _ _ _ _ I); auto). injection Hm as <- <-.
            rewrite Nat.eqb_refl. eauto.
          - unfold m1 in Hm. rewrite nth_upd_neq in Hm by auto. destruct (mi_map _ _ _ _ _ _ _ I t' rev' ed' Hm) as [w' S'].
            pose proof (slot_lt _ _ _ _ S'). destruct (Nat.eqb_spec ed' (rl R first)); [lia|]. eauto. }
        assert (SLo : forall a b, inS a = true -> a <> first -> slot R' a b = slot R a b).
        { intros a b Ha Na. rewrite SL'. destruct (Nat.eqb_spec a t); [congruence|]. destruct (Nat.eqb_spec a first); [congruence|]. reflexivity. }
        destruct (IH R' (deg_add deg first w) ne m1 (S k) (dadd D n k) rem) as (m' & R3 & deg' & ne' & D' & E & I' & X1 & X2 & X3 & X4); auto; try lia.
        { constructor; auto.
          - rewrite N'. apply (mi_n _ _ _ _ _ _ _ I).
          - unfold m1. rewrite upd_length. apply (mi_mlen _ _ _ _ _ _ _ I).
          - intros a b Ha. rewrite DZ by congruence. apply (mi_out _ _ _ _ _ _ _ I). auto.
          - intro b. rewrite DZ by auto. apply (mi_first _ _ _ _ _ _ _ I).
          - intros a b t' Ha Na HT Ht'. unfold dadd. rewrite (mi_dead _ _ _ _ _ _ _ I a b t'); auto.
          - intros a b Ha Na. rewrite <- (mi_T _ _ _ _ _ _ _ I a b Ha Na). unfold tgt_of. rewrite SLo by auto. reflexivity.
          - intros a Ha Na. rewrite RL'. destruct (Nat.eqb_spec a first); [congruence|]. apply (mi_len _ _ _ _ _ _ _ I); auto.
          - unfold deg_add. rewrite upd_length. apply (mi_dlen _ _ _ _ _ _ _ I).
          - unfold deg_add. rewrite nth_upd_eq by (rewrite (mi_dlen _ _ _ _ _ _ _ I); auto). rewrite (mi_dfirst _ _ _ _ _ _ _ I).
            specialize (C fd first). unfold pairf in C. rewrite Nat.eqb_refl in C. destruct (Nat.eqb_spec first n); [congruence|].
            destruct (Nat.eqb_spec first t); [congruence|]. unfold fd in *. lia.
          - intros u Iu Hu. unfold deg_add. rewrite nth_upd_neq by congruence. rewrite (mi_dout _ _ _ _ _ _ _ I) by auto.
            specialize (C fd u). unfold pairf in C. destruct (Nat.eqb_spec u n); [congruence|]. destruct (Nat.eqb_spec u first); [congruence|].
            destruct (u =? t); unfold fd in *; lia. }
        { rewrite NE, CI.
          assert (P : (bsum n0 (ls (dadd D n k) R' fc) + 2 = bsum n0 (ls D R fc) + 2)%N).
          { rewrite <- (pairf_count n0 n t w) at 1 by auto. rewrite <- (pairf_count n0 first t w) by auto. rewrite <- !bsum_add. apply bsum_ext. intros i _. apply C. }
          lia. }
        exists m', R3, deg', ne', D'. split; [auto|]. split; [auto|]. split; [auto|].
        split; [intros a b Na; rewrite X2 by auto; apply DZ; auto|]. split; [auto|].
        destruct (step_sums n0 D (dadd D n k) R R' n t w Hn Hf In It C2) as [S1 S2]. destruct X4 as [X4 X5].
        split; [intros f Lf; rewrite X4, S1; auto|intros f u Lf Iu; rewrite X5, S2; auto].
Qed.

Lemma merge_vertices_ok n0 T len vs : forall R deg ne m D,
  minvr n0 T len D R deg m -> first < n0 -> NoDup vs ->
  (forall n, In n vs -> inS n = true /\ n <> first /\ n < n0) ->
  (forall n j, In n vs -> j < len n -> D n j = into T n j) ->
  ne = (bsum n0 (ls D R fc) + sumN (fun n => cnt_in T n 0 (len n)) vs)%N ->
  exists R' deg' ne' D', merge_vertices vs inS first m (R, deg, ne) = Some (R', deg', ne') /\
    (exists m', minvr n0 T len D' R' deg' m') /\ (forall n j, In n vs -> j < len n -> D' n j = true) /\
    (forall a b, ~ In a vs -> D' a b = D a b) /\
    ne' = bsum n0 (ls D' R' fc) /\ same_sums n0 D D' R R'.
Proof.
  induction vs as [|n vs IH]; intros R deg ne m D I Hf ND Hin Dn NE.
  - exists R, deg, ne, D. split; [reflexivity|]. split; [eauto|]. split; [intros n j []|]. split; [auto|].
    split; [rewrite NE; simpl; lia|]. split; auto.
  - cbn [merge_vertices fst]. destruct (Hin n (or_introl eq_refl)) as [In [Nf Hn]]. inversion ND as [|? ? Nin ND']. subst.
    change (length (nth n R [])) with (rl R n). rewrite (mi_len _ _ _ _ _ _ _ I n In Nf).
    destruct (merge_vertex_ok n0 T len n (len n) R deg (bsum n0 (ls D R fc) + sumN (fun n => cnt_in T n 0 (len n)) (n :: vs))%N m 0 D
                (sumN (fun n => cnt_in T n 0 (len n)) vs)) as (m1 & R1 & deg1 & ne1 & D1 & E & I1 & X1 & X2 & X3 & X4); auto; try lia.
    { intros j Hj. apply Dn; [left; auto|lia]. } { cbn [sumN]. lia. }
    rewrite E.
    destruct (IH R1 deg1 ne1 m1 D1) as (R' & deg' & ne' & D' & E' & M' & Y1 & Y2 & Y3 & Y4); auto.
    { intros x Hx. apply Hin. right. auto. }
    { intros x j Hx Hj. rewrite X2 by congruence. apply Dn; [right; auto|auto]. }
    exists R', deg', ne', D'. split; [auto|]. split; [auto|]. split.
    { intros x j [->|Hx] Hj; [rewrite Y2 by auto; apply X1; auto|apply Y1; auto]. }
    split.
    { intros a b Na. rewrite Y2 by (intro; apply Na; right; auto). apply X2. intros ->. apply Na. left. auto. }
    split; [auto|]. destruct X4 as [A1 A2], Y4 as [B1 B2]. split; [intros f Lf; rewrite B1, A1; auto|intros f u Lf Iu; rewrite B2, A2; auto].
Qed.

End Merge.
