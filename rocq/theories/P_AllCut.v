(* P_AllCut.v - proofs about M_AllCut: exchanging blocks, the degree estimates of allCutsPrTests12, and allCutsPrTests34 as
   an instance of prTests34. *)
From Verif Require Import SpecRel M_UnionFind P_UnionFind SpecCut SpecHier SpecPR P_Cut M_AllCut P_Contract P_Hier P_PR P_PRTests.

(** weight between two sets *)
Definition btw (n : nat) (W : wfun) (A B : nat -> bool) : N :=
  bsum n (fun u => bsum n (fun v => if A u && B v then W u v else 0%N)).

Lemma btw_sym n W A B : symm n W -> btw n W A B = btw n W B A.
Proof.
  intros Sy. unfold btw. rewrite bsum_swap. apply bsum_ext. intros u Hu. apply bsum_ext. intros v Hv.
  rewrite Bool.andb_comm, (Sy v u) by auto. reflexivity.
Qed.
Lemma btw_le n W A B A' B' : (forall u, u < n -> A u = true -> A' u = true) -> (forall u, u < n -> B u = true -> B' u = true) ->
  (btw n W A B <= btw n W A' B')%N.
Proof.
  intros HA HB. unfold btw. apply bsum_le. intros u Hu. apply bsum_le. intros v Hv. specialize (HA u Hu). specialize (HB v Hv).
  destruct (A u), (B v); cbn; try rewrite HA, HB by auto; cbn; try lia; destruct (A' u && B' v); lia.
Qed.
Lemma btw_one n W (A B : nat -> bool) a b : a < n -> b < n -> A a = true -> B b = true -> (W a b <= btw n W A B)%N.
Proof.
  intros Ha Hb Aa Bb. unfold btw. etransitivity; [|apply (bsum_In_le n _ a Ha)].
  pose proof (bsum_In_le n (fun v => if A a && B v then W a v else 0%N) b Hb) as L. cbn beta in L. rewrite Bb, Bool.andb_true_r in L. etransitivity; [|exact L]. rewrite Aa. apply N.le_refl.
Qed.

Lemma cut_union n W A B : symm n W -> (forall u, u < n -> A u = true -> B u = false) ->
  (cutw n W (fun u => A u || B u) + 2 * btw n W A B = cutw n W A + cutw n W B)%N.
Proof.
  intros Sy D. replace (2 * btw n W A B)%N with (btw n W A B + btw n W B A)%N by (rewrite (btw_sym n W B A Sy); lia).
  unfold cutw, btw. rewrite <- !bsum_add. apply bsum_ext. intros u Hu. rewrite <- !bsum_add. apply bsum_ext. intros v Hv.
  pose proof (D u Hu) as Du. pose proof (D v Hv) as Dv.
  destruct (A u), (B u), (A v), (B v); cbn; try (specialize (Du eq_refl); discriminate Du); try (specialize (Dv eq_refl); discriminate Dv); lia.
Qed.

(** moving a block B from S to the other side *)
Lemma move_block n W S B : symm n W -> (forall u, u < n -> B u = true -> S u = true) ->
  (cutw n W (fun u => S u && negb (B u)) + 2 * btw n W B (fun u => negb (S u)) = cutw n W S + cutw n W B)%N.
Proof.
  intros Sy I.
  rewrite <- (cutw_compl n W (fun u => S u && negb (B u)) Sy).
  rewrite (cutw_ext n W (fun u => negb (S u && negb (B u))) (fun u => B u || negb (S u))) by (intros u Hu; destruct (S u), (B u); reflexivity).
  rewrite (cut_union n W B (fun u => negb (S u)) Sy).
  - rewrite (cutw_compl n W S Sy). lia.
  - intros u Hu Bu. rewrite (I u Hu Bu). reflexivity.
Qed.

Lemma bsum_gap0 lam n f : (forall i, i < n -> f i = 0%N \/ (lam <= 2 * f i)%N) -> (bsum n f = 0 \/ lam <= 2 * bsum n f)%N.
Proof.
  intros H. destruct (N.eq_dec (bsum n f) 0) as [E|E]; [auto|]. right.
  assert (X : exists i, i < n /\ f i <> 0%N).
  { destruct (existsb (fun i => negb (f i =? 0)%N) (seq 0 n)) eqn:Q.
    - apply existsb_exists in Q as (i & Hi & Q). apply in_seq in Hi. exists i. split; [lia|]. intro Z. rewrite Z in Q. discriminate Q.
    - exfalso. apply E. apply bsum_zero. intros i Hi. destruct (N.eqb_spec (f i) 0) as [|NE]; [auto|]. exfalso.
      assert (Y : existsb (fun i => negb (f i =? 0)%N) (seq 0 n) = true). { apply existsb_exists. exists i. split; [apply in_seq; lia|]. apply N.eqb_neq in NE. rewrite NE. reflexivity. } congruence. }
  destruct X as (i & Hi & NZ). destruct (H i Hi) as [Z|L]; [congruence|]. pose proof (bsum_In_le n f i Hi). lia.
Qed.
Lemma bsum_gap lam n f x c : x < n -> (forall i, i < n -> i <> x -> f i = 0%N \/ (lam <= 2 * f i)%N) -> (f x = c \/ 2 * c + lam <= 2 * f x)%N ->
  (bsum n f = c \/ 2 * c + lam <= 2 * bsum n f)%N.
Proof.
  intros Hx H C. rewrite (bsum_out n f x Hx).
  destruct (bsum_gap0 lam n (fun u => if u =? x then 0%N else f u)) as [E|L].
  - intros i Hi. destruct (Nat.eqb_spec i x); [left; reflexivity|auto].
  - destruct C; lia.
  - destruct C; lia.
Qed.

Lemma sumN_cons {A} (f : A -> N) a l : sumN f (a :: l) = (f a + sumN f l)%N.
Proof. reflexivity. Qed.

Section AC12.
Variable G : graph.
Variable limit : N.
Hypothesis U : undirected G.
Let n := length G.
Let W := wt G.

(** the two cases in which the degree estimates are harmless *)
Definition no_light : Prop := forall u v w, In (v, w) (nth u G []) -> (limit <= 2 * w)%N.
Definition no_medium : Prop := forall u v w, In (v, w) (nth u G []) -> (2 * w <= limit \/ limit < w)%N.
Definition guard : Prop := no_light \/ no_medium.

Lemma light_sum l : (forall (v : nat) w, In (v, w) l -> (limit <= 2 * w)%N) -> (sumN snd l = 0 \/ limit <= 2 * sumN snd l)%N.
Proof.
  destruct l as [|[v w] l]; intros H; [left; reflexivity|]. right. specialize (H v w (or_introl eq_refl)). rewrite sumN_cons. cbn [snd]. lia.
Qed.

Lemma wt_gap0 : no_light -> forall u v, (W u v = 0 \/ limit <= 2 * W u v)%N.
Proof. intros L u v. apply light_sum. intros x w Hi. apply filter_In in Hi as [Hi _]. apply (L u x w Hi). Qed.

Lemma wt_gap1 : no_light -> forall u v w, In (v, w) (nth u G []) -> (W u v = w \/ 2 * w + limit <= 2 * W u v)%N.
Proof.
  intros L u v w Hi. unfold W, wt. assert (X : In (v, w) (filter (fun e => fst e =? v) (nth u G []))) by (apply filter_In; split; [auto|apply Nat.eqb_refl]).
  apply in_split in X as (l1 & l2 & E). rewrite E, sumN_app, sumN_cons. cbn [snd].
  assert (X : (sumN snd (l1 ++ l2) = 0 \/ limit <= 2 * sumN snd (l1 ++ l2))%N).
  { apply light_sum. intros x y Hx. assert (Y : In (x, y) (filter (fun e => fst e =? v) (nth u G []))) by (rewrite E; apply in_or_app; apply in_app_or in Hx; destruct Hx; [left|right; right]; auto).
    apply filter_In in Y as [Y _]. apply (L u x y Y). }
  rewrite sumN_app in X. destruct X; lia.
Qed.

Lemma btw_gap (A B : nat -> bool) a b w : no_light -> a < n -> b < n -> A a = true -> B b = true -> In (b, w) (nth a G []) ->
  (btw n W A B = w \/ 2 * w + limit <= 2 * btw n W A B)%N.
Proof.
  intros L Ha Hb Aa Bb Hi. unfold btw. apply (bsum_gap limit n _ a w Ha).
  - intros i Hi' _. apply bsum_gap0. intros j Hj. destruct (A i && B j); [apply wt_gap0; auto|left; reflexivity].
  - apply (bsum_gap limit n _ b w Hb).
    + intros j Hj _. destruct (A a && B j); [apply wt_gap0; auto|left; reflexivity].
    + rewrite Aa, Bb. cbn [andb]. apply wt_gap1; auto.
Qed.

(** [B] is the class of r *)
Definition class_of (ps : list (nat * nat)) (r : nat) (B : nat -> bool) : Prop := forall y, y < n -> (B y = true <-> conn ps r y).

Definition est (ps : list (nat * nat)) (u : uf) (d : list N) : Prop :=
  length d = n /\ forall r B, r < n -> Root (parent u) r r -> class_of ps r B ->
    (cutw n W B <= nth r d 0)%N /\ (no_light -> cutw n W B = nth r d 0 \/ cutw n W B + limit <= nth r d 0)%N.

Definition safe (ps : list (nat * nat)) : Prop := guard -> forall a b, In (a, b) ps -> good G (limit + 1) a b.

Lemma class_exists ps u r : inv n ps u -> r < n -> exists B, class_of ps r B.
Proof.
  intros I Hr. destruct (find_inv n ps u r I Hr) as (_ & a & _ & _ & _ & _ & R1 & _).
  exists (fun y => match uf_find u y with Some (_, b) => a =? b | None => false end). intros y Hy.
  destruct (find_inv n ps u y I Hy) as (u' & b & -> & _ & _ & _ & R2 & _). rewrite Nat.eqb_eq. apply (conn_root_iff n ps u r y a b I Hr Hy R1 R2).
Qed.

Lemma find_root ps u x : inv n ps u -> x < n ->
  exists u' r, uf_find u x = Some (u', r) /\ inv n ps u' /\ r < n /\ conn ps x r /\ Root (parent u') r r /\ (forall y s, Root (parent u') y s <-> Root (parent u) y s).
Proof.
  intros I Hx. destruct (find_inv n ps u x I Hx) as (u' & r & E & I' & _ & _ & R & Q).
  exists u', r. split; [auto|]. split; [auto|]. pose proof (Root_lt _ _ _ R) as (_ & Hr & _). rewrite (inv_len _ _ _ I) in Hr.
  split; [auto|]. split; [|split; [apply Q, (Root_idem _ _ _ R)|exact Q]]. apply (conn_root_iff n ps u x r r r I Hx Hr R (Root_idem _ _ _ R)). reflexivity.
Qed.

Lemma Root_self p r : Root p r r -> nth r p 0 = r.
Proof. intros R. pose proof (Root_lt _ _ _ R) as (_ & _ & E). exact E. Qed.

Lemma union_roots ps u a b u' t : inv n ps u -> a < n -> b < n -> uf_union u a b = Some (u', t) -> forall r, Root (parent u') r r -> Root (parent u) r r.
Proof.
  intros I Ha Hb. unfold uf_union.
  destruct (find_root ps u a I Ha) as (u1 & ra & -> & I1 & Hra & _ & R1 & Q1).
  destruct (find_root ps u1 b I1 Hb) as (u2 & rb & -> & I2 & Hrb & _ & R2 & Q2).
  destruct (Nat.eqb_spec ra rb) as [E|NE].
  - intros H. injection H as <- _. intros r R. apply Q1, Q2. exact R.
  - assert (K : forall x y r, x <> y -> Root (upd (parent u2) x y) r r -> Root (parent u) r r).
    { intros x y r N R. apply Q1, Q2. pose proof (Root_self _ _ R) as S. pose proof (Root_lt _ _ _ R) as (L & _ & _). rewrite upd_length in L.
      destruct (Nat.eq_dec r x) as [->|NX]; [rewrite nth_upd_eq in S by auto; congruence|]. rewrite nth_upd_neq in S by auto. apply Root_here; auto. }
    destruct (_ <? _); intros H; injection H as <- _; intros r R; eapply K; [|exact R| |exact R]; congruence.
Qed.

Lemma conn_snoc ps s t r y : conn (ps ++ [(s, t)]) r y -> conn ps r y \/ (conn ps r s /\ conn ps t y) \/ (conn ps r t /\ conn ps s y).
Proof.
  revert r y. apply (conn_in_relation (ps ++ [(s, t)]) (fun r y => conn ps r y \/ (conn ps r s /\ conn ps t y) \/ (conn ps r t /\ conn ps s y))).
  - intros x. left. apply conn_refl.
  - intros x y [A|[[A B]|[A B]]]; [left; apply conn_sym; auto|right; right|right; left]; split; apply conn_sym; auto.
  - intros x y z [A|[[A B]|[A B]]] [C|[[C D]|[C D]]].
    + left. eapply conn_trans; eauto.
    + right; left; split; auto. eapply conn_trans; eauto.
    + right; right; split; auto. eapply conn_trans; eauto.
    + right; left; split; auto. eapply conn_trans; eauto.
    + right; left; split; auto.
    + left. eapply conn_trans; eauto.
    + right; right; split; auto. eapply conn_trans; eauto.
    + left. eapply conn_trans; eauto.
    + right; right; split; auto.
  - intros x y I. apply in_app_or in I as [I|[I|[]]]; [left; apply conn_pair; auto|]. injection I as -> ->. right; left. split; apply conn_refl.
Qed.
Lemma conn_snoc_mono ps s t r y : conn ps r y -> conn (ps ++ [(s, t)]) r y.
Proof. apply conn_mono. intros x Hx. apply in_or_app. auto. Qed.
Lemma conn_snoc_new ps s t : conn (ps ++ [(s, t)]) s t.
Proof. apply conn_pair, in_or_app. right. left. reflexivity. Qed.

(** joining the classes of s and t along the edge (b, w) of a *)
Lemma join_good ps u d s t a b w Bs Bt : guard -> inv n ps u -> est ps u d -> safe ps -> s < n -> t < n -> Root (parent u) s s ->
  class_of ps s Bs -> class_of ps t Bt -> a < n -> b < n -> (no_medium -> 2 * w <= limit \/ limit < w)%N -> conn ps s a -> conn ps t b -> (w <= W a b)%N ->
  (limit < nth s d 0)%N -> (nth s d 0 < 2 * w)%N -> good G (limit + 1) s t.
Proof.
  intros Gd I [Ld E] Sf Hs Ht Rs Cs Ct Ha Hb Hi Sa Tb Lw L1 L2. specialize (Sf Gd).
  apply good_true; auto. intros S (P & M & Lt) Ss. destruct (S t) eqn:St; [reflexivity|exfalso]. fold n W in P, M, Lt.
  assert (KS : forall x y, conn ps x y -> S x = S y). { intros x y C. apply (good_conn G (limit + 1) ps x y Sf C). split; auto. }
  assert (BS : forall y, y < n -> Bs y = true -> S y = true). { intros y Hy B. apply Cs in B; auto. rewrite <- (KS s y B). exact Ss. }
  assert (BT : forall y, y < n -> Bt y = true -> negb (S y) = true). { intros y Hy B. apply Ct in B; auto. rewrite <- (KS t y B), St. reflexivity. }
  assert (Bsa : Bs a = true) by (apply Cs; auto). assert (Btb : Bt b = true) by (apply Ct; auto).
  pose proof (move_block n W S Bs (proj2 U) BS) as MV.
  destruct (E s Bs Hs Rs Cs) as [D1 D2].
  assert (WB : (w <= btw n W Bs (fun u => negb (S u)))%N).
  { etransitivity; [exact Lw|]. apply btw_one; auto. }
  destruct (existsb (fun y => S y && negb (Bs y)) (seq 0 n)) eqn:Q.
  - apply existsb_exists in Q as (y & Hy & Q). apply in_seq in Hy.
    assert (PR : proper n (fun u => S u && negb (Bs u))).
    { split; [exists y; split; [lia|auto]|]. exists t. rewrite St. auto. }
    specialize (M _ PR). lia.
  - assert (SB : forall y, y < n -> S y = Bs y).
    { intros y Hy. destruct (Bs y) eqn:B; [auto|]. destruct (S y) eqn:Sy; [|reflexivity]. exfalso.
      assert (X : existsb (fun y => S y && negb (Bs y)) (seq 0 n) = true) by (apply existsb_exists; exists y; split; [apply in_seq; lia|rewrite Sy, B; reflexivity]). congruence. }
    rewrite (cutw_ext n W S Bs SB) in *.
    assert (WC : (w <= cutw n W Bs)%N).
    { rewrite <- (cutw_ext n W S Bs SB). etransitivity; [exact Lw|]. apply sep_weight; auto; [exact (proj2 U)|]. rewrite (SB a Ha), Bsa. specialize (BT b Hb Btb). destruct (S b); [discriminate BT|discriminate]. }
    destruct Gd as [NL|NM].
    + destruct (D2 NL); lia.
    + destruct (Hi NM); lia.
Qed.

Lemma wt_sym_entry a b w : In (b, w) (nth a G []) -> a < n -> b < n -> (w <= W b a)%N.
Proof. intros Hi Ha Hb. unfold W. rewrite <- (proj2 U a b) by auto. apply wt_entry; auto. Qed.

Lemma est_find ps u u' d : (forall y s, Root (parent u') y s <-> Root (parent u) y s) -> est ps u d -> est ps u' d.
Proof. intros Q [L E]. split; auto. intros r B Hr R. apply Q in R. auto. Qed.

Lemma ac12_edge_ok v t w ps u d : v < n -> In (t, w) (nth v G []) -> inv n ps u -> est ps u d -> safe ps ->
  exists ps' u' d', ac12_edge limit v (u, d) (t, w) = Some (u', d') /\ inv n ps' u' /\ est ps' u' d' /\ safe ps'.
Proof.
  intros Hv Hin I E Sf. destruct (proj1 U v t w Hin) as [Ht Nt]. fold n in Ht. unfold ac12_edge.
  destruct (find_root ps u t I Ht) as (u1 & tg & -> & I1 & Htg & C1 & R1 & Q1).
  destruct (find_root ps u1 v I1 Hv) as (u2 & sc & -> & I2 & Hsc & C2 & R2 & Q2).
  pose proof (est_find ps _ _ d Q1 E) as E1. pose proof (est_find ps _ _ d Q2 E1) as E2. clear E E1.
  apply Q2 in R1.
  set (ds := nth sc d 0%N). set (dt := nth tg d 0%N).
  destruct (negb (tg =? sc) && ((limit <? w)%N || (ds <? 2 * w)%N || (dt <? 2 * w)%N) && (limit <? ds)%N && (limit <? dt)%N) eqn:T; [|exists ps, u2, d; auto].
  apply andb_prop in T as [T L2]. apply andb_prop in T as [T L1]. apply andb_prop in T as [T T2].
  apply negb_true_iff, Nat.eqb_neq in T. apply N.ltb_lt in L1, L2.
  destruct (union_inv n ps u2 sc tg I2 Hsc Htg) as (u3 & tt & Un & I3 & _). rewrite Un.
  exists (ps ++ [(sc, tg)]), u3. eexists. split; [reflexivity|]. split; [auto|].
  assert (Lw : (w <= W v t)%N) by (apply wt_entry; auto). pose proof (wt_sym_entry v t w Hin Hv Ht) as Lw'.
  destruct (class_exists ps u2 sc I2 Hsc) as [Bs Cs]. destruct (class_exists ps u2 tg I2 Htg) as [Bt Ct].
  assert (Bv : Bs v = true) by (apply Cs; auto; apply conn_sym; auto). assert (Bt' : Bt t = true) by (apply Ct; auto; apply conn_sym; auto).
  assert (NC : ~ conn ps sc tg). { intros C. apply (conn_root_iff n ps u2 sc tg sc tg I2 Hsc Htg R2 R1) in C. congruence. }
  assert (DJ : forall y, y < n -> Bs y = true -> Bt y = false).
  { intros y Hy B. destruct (Bt y) eqn:B'; [|reflexivity]. exfalso. apply NC. apply Cs in B; auto. apply Ct in B'; auto. eapply conn_trans; [exact B|]. apply conn_sym. exact B'. }
  pose proof E2 as [Ld E2']. destruct (E2' sc Bs Hsc R2 Cs) as [D1 D2]. destruct (E2' tg Bt Htg R1 Ct) as [D3 D4]. fold ds in D1, D2. fold dt in D3, D4.
  pose proof (cut_union n W Bs Bt (proj2 U) DJ) as CU.
  assert (WB : (w <= btw n W Bs Bt)%N) by (etransitivity; [exact Lw|apply btw_one; auto]).
  assert (BLs : (btw n W Bs Bt <= cutw n W Bs)%N).
  { unfold cutw. apply btw_le; auto. intros y Hy B. destruct (Bs y) eqn:Z; auto. rewrite (DJ y Hy Z) in B. discriminate B. }
  split.
  - split; [rewrite !upd_length; auto|]. intros r B Hr Rr CB.
    pose proof (union_roots ps u2 sc tg u3 tt I2 Hsc Htg Un r Rr) as Rr2.
    destruct (Nat.eq_dec r sc) as [->|N1]; [|destruct (Nat.eq_dec r tg) as [->|N2]].
    + assert (EB : cutw n W B = cutw n W (fun y => Bs y || Bt y)).
      { apply cutw_ext. intros y Hy. apply Bool.eq_iff_eq_true. rewrite (CB y Hy), Bool.orb_true_iff, (Cs y Hy), (Ct y Hy). split.
        - intros C. apply conn_snoc in C as [C|[[_ C]|[C C']]]; auto.
        - intros [C|C]; [apply conn_snoc_mono; auto|]. eapply conn_trans; [apply conn_snoc_new|apply conn_snoc_mono; auto]. }
      rewrite EB. rewrite nth_upd_neq by congruence. rewrite nth_upd_eq by lia. split; [lia|]. intros NL. specialize (D2 NL). specialize (D4 NL).
      destruct (btw_gap Bs Bt v t w NL Hv Ht Bv Bt' Hin); destruct D2, D4; lia.
    + assert (EB : cutw n W B = cutw n W (fun y => Bs y || Bt y)).
      { apply cutw_ext. intros y Hy. apply Bool.eq_iff_eq_true. rewrite (CB y Hy), Bool.orb_true_iff, (Cs y Hy), (Ct y Hy). split.
        - intros C. apply conn_snoc in C as [C|[[C C']|[_ C]]]; auto.
        - intros [C|C]; [|apply conn_snoc_mono; auto]. eapply conn_trans; [apply conn_sym, conn_snoc_new|apply conn_snoc_mono; auto]. }
      rewrite EB. rewrite nth_upd_eq by (rewrite upd_length; lia). split; [lia|]. intros NL. specialize (D2 NL). specialize (D4 NL).
      destruct (btw_gap Bs Bt v t w NL Hv Ht Bv Bt' Hin); destruct D2, D4; lia.
    + rewrite !nth_upd_neq by congruence. apply (E2' r B Hr Rr2). intros y Hy. rewrite (CB y Hy). split.
      * intros C. apply conn_snoc in C as [C|[[C _]|[C _]]]; auto; exfalso.
        { apply (conn_root_iff n ps u2 r sc r sc I2 Hr Hsc Rr2 R2) in C. congruence. }
        { apply (conn_root_iff n ps u2 r tg r tg I2 Hr Htg Rr2 R1) in C. congruence. }
      * apply conn_snoc_mono.
  - intros Gd x y Hi. apply in_app_or in Hi as [Hi|[Hi|[]]]; [apply Sf; auto|]. injection Hi as <- <-.
    apply orb_prop in T2 as [T2|T2]; [apply orb_prop in T2 as [T2|T2]|]; apply N.ltb_lt in T2.
    + apply (good_trans G (limit + 1) _ v); [apply good_sym; apply (good_conn G (limit + 1) ps); auto|].
      apply (good_trans G (limit + 1) _ t); [|apply (good_conn G (limit + 1) ps); auto]. apply good_heavy; auto. fold W. lia.
    + apply (join_good ps u2 d sc tg v t w Bs Bt); auto; try (apply conn_sym; auto). intros NM. apply (NM v t w Hin).
    + apply good_sym. apply (join_good ps u2 d tg sc t v w Bt Bs); auto; try (apply conn_sym; auto). intros NM. apply (NM v t w Hin).
Qed.

Lemma ac12_edges_ok v : v < n -> forall es ps u d, incl es (nth v G []) -> inv n ps u -> est ps u d -> safe ps ->
  exists ps' u' d', ac12_edges limit v (u, d) es = Some (u', d') /\ inv n ps' u' /\ est ps' u' d' /\ safe ps'.
Proof.
  intros Hv. induction es as [|[t w] es IH]; intros ps u d Inc I E O; [exists ps, u, d; auto|].
  cbn [ac12_edges]. destruct (ac12_edge_ok v t w ps u d Hv (Inc _ (or_introl eq_refl)) I E O) as (ps1 & u1 & d1 & -> & I1 & E1 & O1).
  apply (IH ps1); auto. intros e He. apply Inc. right. auto.
Qed.

Lemma ac12_nodes_ok : forall ns ps u d, (forall v, In v ns -> v < n) -> inv n ps u -> est ps u d -> safe ps ->
  exists ps' u' d', ac12_nodes limit G (u, d) ns = Some (u', d') /\ inv n ps' u' /\ est ps' u' d' /\ safe ps'.
Proof.
  induction ns as [|v ns IH]; intros ps u d R I E O; [exists ps, u, d; auto|].
  cbn [ac12_nodes]. destruct (ac12_edges_ok v (R v (or_introl eq_refl)) (nth v G []) ps u d (incl_refl _) I E O) as (ps1 & u1 & d1 & -> & I1 & E1 & O1).
  apply (IH ps1); auto. intros x Hx. apply R. right. auto.
Qed.

Theorem ac_tests12_ok : exists u ps, ac_tests12 G limit = Some u /\ inv n ps u /\ safe ps.
Proof.
  unfold ac_tests12. fold n.
  destruct (ac12_nodes_ok (seq 0 n) [] (uf_init n) (map (deg G) (seq 0 n))) as (ps & u & d & -> & I & _ & O).
  - intros v Hv. apply in_seq in Hv. lia.
  - apply inv_init.
  - split; [rewrite map_length, seq_length; auto|]. intros r B Hr _ CB.
    assert (EB : cutw n W B = cutw n W (fun v => v =? r)).
    { apply cutw_ext. intros y Hy. apply Bool.eq_iff_eq_true. rewrite (CB y Hy), Nat.eqb_eq. split; [intros C; symmetry; apply conn_nil; auto|intros ->; apply conn_refl]. }
    rewrite EB. unfold n, W. rewrite <- deg_cut by auto. fold n.
    assert (ND : nth r (map (deg G) (seq 0 n)) 0%N = deg G r).
    { rewrite (nth_indep _ 0%N (deg G 0)) by (rewrite map_length, seq_length; auto). rewrite map_nth, seq_nth by auto. reflexivity. }
    rewrite ND. split; [lia|auto].
  - intros _ a b [].
  - exists u, ps. auto.
Qed.
End AC12.
