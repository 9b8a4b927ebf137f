(* P_PRTests.v - the pairs joined by the models of prTests12 and prTests34. *)
From Verif Require Import SpecRel M_UnionFind P_UnionFind SpecCut SpecHier SpecPR P_Cut M_PRTests P_Contract P_Hier P_PR.

Lemma find_conn n ps u x : inv n ps u -> x < n ->
  exists u' r, uf_find u x = Some (u', r) /\ inv n ps u' /\ r < n /\ conn ps x r.
Proof.
  intros I Hx. destruct (find_inv n ps u x I Hx) as (u' & r & E & I' & _ & _ & R & _).
  exists u', r. split; [auto|]. split; [auto|]. pose proof (Root_lt _ _ _ R) as (_ & Hr & _). rewrite (inv_len _ _ _ I) in Hr.
  split; [auto|]. apply (conn_root_iff n ps u x r r r I Hx Hr R (Root_idem _ _ _ R)). reflexivity.
Qed.

Section Tests.
Variable G : graph.
Variable limit : N.
Variable all : bool.
Hypothesis U : undirected G.
Let n := length G.

(** the tests may be trusted: truncation changes no degree, and no vertex is a smaller cut *)
Definition sane12 : Prop := (forall v, v < n -> (deg G v < 4294967296)%N) /\
  (all = true \/ forall v, v < n -> (limit <= deg G v)%N).

Definition ok12 (ps : list (nat * nat)) : Prop := sane12 -> forall a b, In (a, b) ps -> good G limit a b.

Lemma ok12_add ps a b : ok12 ps -> (sane12 -> good G limit a b) -> ok12 (ps ++ [(a, b)]).
Proof.
  intros H K Sa x y I. apply in_app_or in I. destruct I as [I|[I|[]]]; [apply H; auto|]. injection I as <- <-. auto.
Qed.

Lemma pr_union_ok ps u c a b a' b' : inv n ps u -> a < n -> b < n ->
  exists u' c', pr_union (u, c) a b a' b' = Some (u', c') /\ inv n (ps ++ [(a, b)]) u'.
Proof.
  intros I Ha Hb. unfold pr_union. cbn [fst snd]. destruct (union_inv n ps u a b I Ha Hb) as (u' & t & -> & I' & _).
  eexists _, _. split; [reflexivity|auto].
Qed.

Lemma trunc_small x : (x < 4294967296)%N -> trunc32 x = x.
Proof. intro H. unfold trunc32. apply N.mod_small. auto. Qed.
Lemma trunc_le x : (trunc32 x <= x)%N.
Proof. unfold trunc32. apply N.mod_le. lia. Qed.

Lemma pr12_edge_ok v t w ps u c : v < n -> In (t, w) (nth v G []) -> inv n ps u -> ok12 ps ->
  exists ps' u' c', pr12_edge all limit G v (u, c) (t, w) = Some (u', c') /\ inv n ps' u' /\ ok12 ps'.
Proof.
  intros Hv Hin I O. destruct (proj1 U v t w Hin) as [Ht Nt]. fold n in Ht.
  assert (Lw : (w <= wt G v t)%N) by (apply wt_entry; auto).
  assert (Lw' : (w <= wt G t v)%N) by (rewrite <- (proj2 U v t) by auto; auto).
  unfold pr12_edge. cbn [fst snd].
  destruct (find_conn n ps u t I Ht) as (u1 & target & -> & I1 & Htg & C1).
  destruct (find_conn n ps u1 v I1 Hv) as (u2 & source & -> & I2 & Hs & C2).
  assert (S3 : exists ps3 u3 c3, (if (limit <=? w)%N then pr_union (u2, c) source target v t else Some (u2, c)) = Some (u3, c3) /\
     inv n ps3 u3 /\ ok12 ps3).
  { destruct (N.leb_spec limit w) as [Le|Gt].
    - destruct (pr_union_ok ps u2 c source target v t I2 Hs Htg) as (u3 & c3 & E & I3). exists (ps ++ [(source, target)]), u3, c3.
      split; [auto|]. split; [auto|]. apply ok12_add; auto. intro Sa. specialize (O Sa).
      apply (good_trans G limit _ v); [apply good_sym; apply (good_conn G limit ps); auto|].
      apply (good_trans G limit _ t); [|apply (good_conn G limit ps); auto].
      apply good_heavy; auto. lia.
    - exists ps, u2, c. auto. }
  destruct S3 as (ps3 & u3 & c3 & -> & I3 & O3).
  destruct (negb all || ((limit <=? trunc32 (deg G v))%N && (limit <=? trunc32 (deg G t))%N)) eqn:Gd; [|exists ps3, u3, c3; auto].
  assert (Dg : sane12 -> (limit <= deg G v)%N /\ (limit <= deg G t)%N).
  { intros [_ [A|A]]; [|split; apply A; auto]. rewrite A in Gd. cbn [negb orb] in Gd. apply andb_prop in Gd. destruct Gd as [X Y].
    apply N.leb_le in X. apply N.leb_le in Y. pose proof (trunc_le (deg G v)). pose proof (trunc_le (deg G t)). lia. }
  assert (Gv : (trunc32 (deg G v) < 2 * w)%N -> sane12 -> good G limit v t).
  { intros L Sa. destruct (Dg Sa) as [D1 D2]. destruct Sa as [Sm _]. rewrite trunc_small in L by auto.
    apply (good_half G limit U v t w); auto. }
  assert (Gt : (trunc32 (deg G t) < 2 * w)%N -> sane12 -> good G limit v t).
  { intros L Sa. destruct (Dg Sa) as [D1 D2]. destruct Sa as [Sm _]. rewrite trunc_small in L by auto.
    apply good_sym. apply (good_half G limit U t v w); auto. }
  cbn [snd].
  assert (S4 : exists ps4 u4 c4, (if (trunc32 (deg G v) <? 2 * w)%N && (negb all || negb (nth v c3 false))
        then pr_union (u3, c3) v t v t else Some (u3, c3)) = Some (u4, c4) /\ inv n ps4 u4 /\ ok12 ps4).
  { destruct ((trunc32 (deg G v) <? 2 * w)%N && (negb all || negb (nth v c3 false))) eqn:T; [|exists ps3, u3, c3; auto].
    apply andb_prop in T. destruct T as [T _]. apply N.ltb_lt in T.
    destruct (pr_union_ok ps3 u3 c3 v t v t I3 Hv Ht) as (u4 & c4 & E & I4). exists (ps3 ++ [(v, t)]), u4, c4.
    split; [auto|]. split; [auto|]. apply ok12_add; auto. }
  destruct S4 as (ps4 & u4 & c4 & -> & I4 & O4). cbn [snd].
  destruct ((trunc32 (deg G t) <? 2 * w)%N && (negb all || negb (nth t c4 false))) eqn:T; [|exists ps4, u4, c4; auto].
  apply andb_prop in T. destruct T as [T _]. apply N.ltb_lt in T.
  destruct (pr_union_ok ps4 u4 c4 v t v t I4 Hv Ht) as (u5 & c5 & E & I5). exists (ps4 ++ [(v, t)]), u5, c5.
  split; [auto|]. split; [auto|]. apply ok12_add; auto.
Qed.

Lemma pr12_edges_ok v : v < n -> forall es ps u c, incl es (nth v G []) -> inv n ps u -> ok12 ps ->
  exists ps' u' c', pr12_edges all limit G v (u, c) es = Some (u', c') /\ inv n ps' u' /\ ok12 ps'.
Proof.
  intros Hv. induction es as [|[t w] es IH]; intros ps u c Inc I O; [exists ps, u, c; auto|].
  cbn [pr12_edges]. destruct (pr12_edge_ok v t w ps u c Hv (Inc _ (or_introl eq_refl)) I O) as (ps1 & u1 & c1 & -> & I1 & O1).
  apply (IH ps1); auto. intros e He. apply Inc. right. auto.
Qed.

Lemma pr12_nodes_ok : forall ns ps u c, (forall v, In v ns -> v < n) -> inv n ps u -> ok12 ps ->
  exists ps' u' c', pr12_nodes all limit G (u, c) ns = Some (u', c') /\ inv n ps' u' /\ ok12 ps'.
Proof.
  induction ns as [|v ns IH]; intros ps u c R I O; [exists ps, u, c; auto|].
  cbn [pr12_nodes]. destruct (pr12_edges_ok v (R v (or_introl eq_refl)) (nth v G []) ps u c (incl_refl _) I O) as (ps1 & u1 & c1 & -> & I1 & O1).
  apply (IH ps1); auto. intros x Hx. apply R. right. auto.
Qed.

Theorem pr_tests12_ok : exists u ps, pr_tests12 all G limit = Some u /\ inv n ps u /\ ok12 ps.
Proof.
  unfold pr_tests12. fold n.
  destruct (pr12_nodes_ok (seq 0 n) [] (uf_init n) (repeat false n)) as (ps & u & c & -> & I & O).
  - intros v Hv. apply in_seq in Hv. lia.
  - apply inv_init.
  - intros _ a b [].
  - exists u, ps. auto.
Qed.
End Tests.

Section Tests34.
Variable G : graph.
Variable limit : N.
Variable all : bool.
Hypothesis U : undirected G.
Let n := length G.
Let W := wt G.

Definition sane34 : Prop := noparallel G /\ (all = true \/ forall v, v < n -> (limit <= deg G v)%N).

Record okp (con : list bool) (ps bs : list (nat * nat)) : Prop := {
  o_ps : forall a b, In (a, b) ps -> good G limit a b \/ In (a, b) bs;
  o_tri : forall a b, In (a, b) bs -> exists x, triangle G limit false a b x;
  o_nd : NoDup (ends bs);
  o_con : forall u, In u (ends bs) -> nth u con false = true;
  o_all : all = true -> bs = [] }.

Definition marks_fine (mk : list (option (nat * nat))) : Prop :=
  forall t m e, nth t mk None = Some (m, e) -> m < t /\ exists w, nth_error (nth m G []) e = Some (t, w).

Record st34 (ps bs : list (nat * nat)) (s : p34) : Prop := {
  s_inv : inv n ps (p_uf s);
  s_len : length (p_con s) = n;
  s_mk : marks_fine (p_mark s);
  s_ok : sane34 -> okp (p_con s) ps bs }.

Lemma con_upd con a b u : length con = n -> a < n -> b < n ->
  nth u (upd (upd con a true) b true) false = ((u =? a) || (u =? b) || nth u con false)%bool.
Proof.
  intros L Ha Hb. rewrite !nth_upd, upd_length, L.
  replace (a <? n) with true by (symmetry; apply Nat.ltb_lt; auto).
  replace (b <? n) with true by (symmetry; apply Nat.ltb_lt; auto).
  rewrite !andb_true_r. destruct (u =? a), (u =? b); reflexivity.
Qed.

Lemma marks_upd_none mk t : marks_fine mk -> marks_fine (upd mk t None).
Proof.
  intros H x m e E. rewrite nth_upd in E. destruct ((x =? t) && (t <? length mk)); [discriminate|]. auto.
Qed.

Lemma mark_edges_ok v : forall es pre mk, nth v G [] = pre ++ es -> marks_fine mk ->
  marks_fine (mark_edges v (length pre) es mk).
Proof.
  induction es as [|[t w] es IH]; intros pre mk E M; [auto|]. cbn [mark_edges].
  replace (S (length pre)) with (length (pre ++ [(t, w)])) by (rewrite app_length; simpl; lia).
  apply IH; [rewrite <- app_assoc; auto|]. destruct (Nat.ltb_spec v t) as [L|L]; [|auto].
  intros x m e X. rewrite nth_upd in X. destruct (Nat.eqb_spec x t) as [->|Nx]; [|apply M; auto].
  destruct (t <? length mk); [|apply M; auto]. cbn in X. injection X as <- <-. split; [auto|]. exists w.
  rewrite E, nth_error_app2 by lia. rewrite Nat.sub_diag. reflexivity.
Qed.

(** contracting a pair for which a good reason exists *)
Lemma okp_good con con' ps bs a b : (forall u, nth u con false = true -> nth u con' false = true) ->
  okp con ps bs -> good G limit a b -> okp con' (ps ++ [(a, b)]) bs.
Proof.
  intros Mo [O1 O2 O3 O4 O5] Gd. constructor; auto. intros x y I. apply in_app_or in I. destruct I as [I|[I|[]]]; [auto|].
  injection I as <- <-. auto.
Qed.

Lemma okp_tri con ps bs a b x : length con = n -> a < n -> b < n -> okp con ps bs -> all = false -> triangle G limit false a b x ->
  nth a con false = false -> nth b con false = false ->
  okp (upd (upd con a true) b true) (ps ++ [(a, b)]) ((a, b) :: bs).
Proof.
  intros L Ha Hb [O1 O2 O3 O4 O5] Al T Ca Cb. constructor.
  - intros y z I. apply in_app_or in I. destruct I as [I|[I|[]]].
    + destruct (O1 y z I); [auto|right; right; auto].
    + right. left. auto.
  - intros y z [E|I]; [injection E as <- <-; exists x; auto|auto].
  - cbn [ends flat_map fst snd app]. change (flat_map _ bs) with (ends bs). destruct T. constructor.
    + intros [E|I]; [congruence|]. rewrite O4 in Ca by auto. discriminate.
    + constructor; [|auto]. intro I. rewrite O4 in Cb by auto. discriminate.
  - intros u Hu. cbn [ends flat_map fst snd app In] in Hu. change (flat_map _ bs) with (ends bs) in Hu.
    rewrite con_upd by auto. destruct Hu as [->|[->|Hu]].
    + rewrite Nat.eqb_refl. reflexivity.
    + rewrite Nat.eqb_refl, orb_true_r. reflexivity.
    + rewrite O4 by auto. apply orb_true_r.
  - congruence.
Qed.

(** the common neighbours of v and tgt in a part of the edge list *)
Definition common (v tgt : nat) (es : list (nat * N)) : N :=
  sumN (fun x => if (Nat.eqb x v || Nat.eqb x tgt)%bool then 0%N else N.min (W v x) (W tgt x)) (map fst es).

Lemma common_snoc v tgt es t w : common v tgt (es ++ [(t, w)]) =
  (common v tgt es + (if (Nat.eqb t v || Nat.eqb t tgt)%bool then 0 else N.min (W v t) (W tgt t)))%N.
Proof. unfold common. rewrite map_app, sumN_app. cbn [map sumN fst]. lia. Qed.

Lemma tri_edge_ok v tgt w1 t2 w2 pre ps bs s sum : v < n -> In (tgt, w1) (nth v G []) -> v < tgt ->
  In (t2, w2) (nth tgt G []) -> st34 ps bs s -> (sum <= W v tgt + common v tgt pre)%N ->
  exists ps' bs' s' sum', tri_edge all limit G v tgt w1 (s, sum) (t2, w2) = Some (s', sum') /\ st34 ps' bs' s' /\
    p_mark s' = p_mark s /\ (sum' <= W v tgt + common v tgt (pre ++ [(t2, w2)]))%N.
Proof.
  intros Hv Hin Lt Hin2 St Ls. destruct (proj1 U v tgt w1 Hin) as [Ht _]. fold n in Ht.
  destruct (proj1 U tgt t2 w2 Hin2) as [Ht2 Nt2]. fold n in Ht2. unfold tri_edge. rewrite common_snoc.
  destruct (nth t2 (p_mark s) None) as [[m e]|] eqn:Em; [|exists ps, bs, s, sum; split; [auto|split; [auto|split; [auto|lia]]]].
  destruct (Nat.eqb_spec m v) as [->|Nm]; cbn [negb]; [|exists ps, bs, s, sum; split; [auto|split; [auto|split; [auto|lia]]]].
  destruct (s_mk _ _ _ St t2 v e Em) as [Lt2 [w3 E3]].
  assert (In3 : In (t2, w3) (nth v G [])) by (eapply nth_error_In; eauto).
  rewrite (nth_error_nth _ _ _ E3). cbn [snd].
  assert (Q1 : (w1 <= W v tgt)%N) by (apply wt_entry; auto).
  assert (Q2 : (w2 <= W tgt t2)%N) by (apply wt_entry; auto).
  assert (Q3 : (w3 <= W v t2)%N) by (apply wt_entry; auto).
  assert (Sum : (sum + N.min w2 w3 <= W v tgt + (common v tgt pre + (if (Nat.eqb t2 v || Nat.eqb t2 tgt)%bool then 0 else N.min (W v t2) (W tgt t2))))%N).
  { destruct (Nat.eqb_spec t2 v); [lia|]. destruct (Nat.eqb_spec t2 tgt); [lia|]. cbn [orb]. lia. }
  set (one := negb all && (deg G v <=? 2 * (w1 + w3))%N && (deg G tgt <=? 2 * (w1 + w2))%N).
  set (two := all && (deg G v <? 2 * (w1 + w3))%N && (deg G tgt <? 2 * (w1 + w2))%N && (limit <=? deg G v)%N && (limit <=? deg G tgt)%N).
  destruct ((one || two) && negb (nth v (p_con s) false) && negb (nth tgt (p_con s) false)) eqn:C;
    [|exists ps, bs, s, (sum + N.min w2 w3)%N; split; [auto|split; [auto|split; [auto|auto]]]].
  apply andb_prop in C. destruct C as [C C3]. apply andb_prop in C. destruct C as [C1 C2].
  apply negb_true_iff in C2. apply negb_true_iff in C3.
  pose proof St as [I L M O].
  destruct (union_inv n ps (p_uf s) v tgt I Hv Ht) as (u' & b & -> & I' & _).
  assert (X : sane34 -> (one = true /\ all = false /\ triangle G limit false v tgt t2) \/ (two = true /\ good G limit v tgt)).
  { intros [_ Sa]. destruct all eqn:Al.
    - right. assert (two = true) as T by (destruct one eqn:O1; [discriminate O1|exact C1]). split; [auto|].
      unfold two in T. rewrite !andb_true_iff in T. destruct T as [[[[_ T1] T2] T3] T4].
      apply N.ltb_lt in T1. apply N.ltb_lt in T2. apply N.leb_le in T3. apply N.leb_le in T4.
      apply (good_triangle G limit U v tgt t2). constructor; fold n W; auto; try lia. 
    - left. destruct Sa as [Sa|Sa]; [discriminate|].
      assert (one = true) as T by (destruct one eqn:O1; [reflexivity|exact C1]). split; [auto|]. split; [auto|].
      unfold one in T. rewrite !andb_true_iff in T. destruct T as [[_ T1] T2].
      apply N.leb_le in T1. apply N.leb_le in T2.
      constructor; fold n W; auto; try lia. }
  assert (Mo : forall u, nth u (p_con s) false = true -> nth u (upd (upd (p_con s) v true) tgt true) false = true).
  { intros u Hu. rewrite con_upd by auto. rewrite Hu. apply orb_true_r. }
  destruct all eqn:Al.
  - exists (ps ++ [(v, tgt)]), bs. eexists _, _. split; [reflexivity|]. split; [|split; [reflexivity|exact Sum]].
    constructor; cbn; auto.
    + rewrite !upd_length. auto.
    + intro Sa. specialize (O Sa). destruct (X Sa) as [[_ [X1 _]]|[_ X1]]; [discriminate|].
      eapply okp_good; eauto.
  - exists (ps ++ [(v, tgt)]), ((v, tgt) :: bs). eexists _, _. split; [reflexivity|]. split; [|split; [reflexivity|exact Sum]].
    constructor; cbn; auto.
    + rewrite !upd_length. auto.
    + intro Sa. specialize (O Sa). destruct (X Sa) as [[_ [_ X1]]|[X1 _]].
      * eapply okp_tri; eauto.
      * unfold two in X1. discriminate X1.
Qed.

Lemma tri_edges_ok v tgt w1 : v < n -> In (tgt, w1) (nth v G []) -> v < tgt ->
  forall es pre ps bs s sum, nth tgt G [] = pre ++ es -> st34 ps bs s -> (sum <= W v tgt + common v tgt pre)%N ->
  exists ps' bs' s' sum', tri_edges all limit G v tgt w1 (s, sum) es = Some (s', sum') /\ st34 ps' bs' s' /\
    p_mark s' = p_mark s /\ (sum' <= W v tgt + common v tgt (pre ++ es))%N.
Proof.
  intros Hv Hin Lt. induction es as [|[t2 w2] es IH]; intros pre ps bs s sum E St Ls.
  - exists ps, bs, s, sum. rewrite app_nil_r. auto.
  - cbn [tri_edges].
    destruct (tri_edge_ok v tgt w1 t2 w2 pre ps bs s sum Hv Hin Lt) as (ps1 & bs1 & s1 & sum1 & -> & St1 & M1 & L1); auto.
    { rewrite E. apply in_or_app. right. left. auto. }
    destruct (IH (pre ++ [(t2, w2)]) ps1 bs1 s1 sum1) as (ps2 & bs2 & s2 & sum2 & E2 & St2 & M2 & L2); auto.
    { rewrite <- app_assoc. auto. }
    exists ps2, bs2, s2, sum2. split; [auto|]. split; [auto|]. split; [congruence|]. rewrite <- app_assoc in L2. auto.
Qed.

Lemma common_bound v tgt : noparallel G -> v < n -> tgt < n ->
  (common v tgt (nth tgt G []) <= bsum n (fun x => if (Nat.eqb x v || Nat.eqb x tgt)%bool then 0 else N.min (W v x) (W tgt x)))%N.
Proof.
  intros NP Hv Ht. unfold common. apply sumN_incl; [apply NP|].
  intros x Hx. apply in_map_iff in Hx. destruct Hx as [[t w] [<- Hx]]. apply (proj1 U tgt t w Hx).
Qed.

Lemma pr34_edge_ok v tgt w1 ps bs s : v < n -> In (tgt, w1) (nth v G []) -> st34 ps bs s ->
  exists ps' bs' s', pr34_edge all limit G v s (tgt, w1) = Some s' /\ st34 ps' bs' s'.
Proof.
  intros Hv Hin St. pose proof St as [I L M O]. destruct (proj1 U v tgt w1 Hin) as [Ht _]. fold n in Ht. unfold pr34_edge.
  destruct (nth tgt (p_fin s) false).
  { exists ps, bs. eexists. split; [reflexivity|]. constructor; cbn; auto. apply marks_upd_none. auto. }
  set (s1 := mk_p34 (p_uf s) (p_mark s) (upd (p_fin s) tgt true) (p_con s)).
  assert (St1 : st34 ps bs s1) by (constructor; cbn; auto).
  destruct (Nat.ltb_spec v tgt) as [Lt|Ge]; [|exists ps, bs, s1; auto].
  destruct (tri_edges_ok v tgt w1 Hv Hin Lt (nth tgt G []) [] ps bs s1 w1 eq_refl St1) as (ps2 & bs2 & s2 & sum & -> & St2 & _ & Ls).
  { pose proof (wt_entry G v tgt w1 Hin) as X. fold W in X. unfold common. cbn. lia. }
  cbn [app] in Ls. pose proof St2 as [I2 L2 M2 O2].
  destruct (N.leb_spec limit sum) as [Le|Gt].
  - destruct (union_inv n ps2 (p_uf s2) v tgt I2 Hv Ht) as (u' & b & -> & I' & _).
    exists (ps2 ++ [(v, tgt)]), bs2. eexists. split; [reflexivity|]. constructor; cbn; auto.
    + rewrite !upd_length. auto.
    + apply marks_upd_none. auto.
    + intro Sa. apply (okp_good (p_con s2)); auto.
      * intros u Hu. rewrite con_upd by auto. rewrite Hu. apply orb_true_r.
      * apply (good_tri G limit U v tgt sum); auto. fold n W. etransitivity; [apply Ls|]. apply N.add_le_mono_l.
        apply common_bound; auto. apply Sa.
  - exists ps2, bs2. eexists. split; [reflexivity|]. constructor; cbn; auto. apply marks_upd_none. auto.
Qed.

Lemma pr34_edges_ok v : v < n -> forall es ps bs s, incl es (nth v G []) -> st34 ps bs s ->
  exists ps' bs' s', pr34_edges all limit G v s es = Some s' /\ st34 ps' bs' s'.
Proof.
  intros Hv. induction es as [|[t w] es IH]; intros ps bs s Inc St; [exists ps, bs, s; auto|].
  cbn [pr34_edges]. destruct (pr34_edge_ok v t w ps bs s Hv (Inc _ (or_introl eq_refl)) St) as (ps1 & bs1 & s1 & -> & St1).
  apply (IH ps1 bs1); auto. intros e He. apply Inc. right. auto.
Qed.

Lemma pr34_nodes_ok : forall ns ps bs s, (forall v, In v ns -> v < n) -> st34 ps bs s ->
  exists ps' bs' s', pr34_nodes all limit G s ns = Some s' /\ st34 ps' bs' s'.
Proof.
  induction ns as [|v ns IH]; intros ps bs s R St; [exists ps, bs, s; auto|].
  cbn [pr34_nodes]. unfold pr34_node.
  assert (R' : forall x, In x ns -> x < n) by (intros x Hx; apply R; right; auto).
  destruct (nth v (p_fin s) false); [apply (IH ps bs); auto|].
  destruct (pr34_edges_ok v (R v (or_introl eq_refl)) (nth v G []) ps bs
     (mk_p34 (p_uf s) (mark_edges v 0 (nth v G []) (p_mark s)) (upd (p_fin s) v true) (p_con s)) (incl_refl _)) as (ps1 & bs1 & s1 & -> & St1).
  - destruct St as [I L M O]. constructor; cbn; auto. apply (mark_edges_ok v (nth v G []) []); auto.
  - apply (IH ps1 bs1); auto.
Qed.

Theorem pr_tests34_ok : exists u ps bs con, pr_tests34 all G limit = Some u /\ inv n ps u /\ (sane34 -> okp con ps bs).
Proof.
  unfold pr_tests34. fold n.
  destruct (pr34_nodes_ok (seq 0 n) [] [] (mk_p34 (uf_init n) (repeat None n) (repeat false n) (repeat false n))) as (ps & bs & s & -> & St).
  - intros v Hv. apply in_seq in Hv. lia.
  - constructor; cbn.
    + apply inv_init.
    + apply repeat_length.
    + intros t m e E. exfalso. destruct (Nat.lt_ge_cases t n) as [Lt|Ge].
      * rewrite nth_repeat_lt in E by auto. discriminate.
      * rewrite nth_overflow in E by (rewrite repeat_length; auto). discriminate.
    + intros _. constructor; auto; try easy. constructor.
  - exists (p_uf s), ps, bs, (p_con s). destruct St. auto.
Qed.
End Tests34.

(** every minimum cut below the limit (or one of them) is respected *)
Lemma okp_all G limit all con ps bs : okp G limit all con ps bs -> all = true -> forall a b, conn ps a b -> good G limit a b.
Proof.
  intros [O1 O2 O3 O4 O5] A a b C. apply (good_conn G limit ps); [|auto]. intros x y I.
  destruct (O1 x y I) as [X|X]; [auto|]. rewrite (O5 A) in X. contradiction.
Qed.

Lemma okp_some G limit all con ps bs : undirected G -> okp G limit all con ps bs -> forall S, mincut_below G limit S ->
  exists S', mincut_below G limit S' /\ forall a b, conn ps a b -> S' a = S' b.
Proof.
  intros U [O1 O2 O3 O4 O5] S B. destruct (fix_all G limit U bs O2 O3 S B) as [S' [B' [E _]]].
  exists S'. split; [auto|]. intros a b. apply (conn_in_relation ps (fun a b => S' a = S' b)).
  - reflexivity.
  - intros; congruence.
  - intros; congruence.
  - intros x y I. destruct (O1 x y I) as [X|X]; [apply X; auto|apply E; auto].
Qed.
