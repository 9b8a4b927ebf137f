(* Prop_Balanced.v - property C66: the most balanced minimum cut taken from a cactus. *)
From Verif Require Import SpecCut P_Cut P_Check SpecMutable SpecDyn SpecCactus M_Balanced P_Mutable P_MutableIO P_Balanced P_Balanced2 P_Balanced3 P_Balanced4 P_Dynamic P_Dynamic3 P_Dynamic4 P_Dynamic5 P_Kernel5 P_LocalSearch Prop_Mutable Prop_Kernel Prop_Dynamic.

(** C is a cactus of all minimum cuts of G, with groups of vertices of G at the vertices of C *)
Record cactus_of (G C : mg) (c : N) : Prop := {
  co_cactus : cactus (m_n C) (mwt C) c;
  co_weights : forall v t w r, In (t, w, r) (nth v (m_rows C) []) -> w <> 0%N;
  co_groups : groups_exact (m_n C) (m_cont C) (m_pos C);
  co_once : forall x, NoDup (nth x (m_cont C) []);
  co_all : length (m_pos C) = m_n G /\ m_orig C = m_n G;
  co_range : forall v, v < m_n G -> mpos C v < m_n C;
  co_sound : sound (m_n G) (mwt G) c (m_n C) (mwt C) (mpos C);
  co_complete : complete (m_n G) (mwt G) c (m_n C) (mwt C) (mpos C)
}.

Lemma sumN_filter_split' {A} (f : A -> N) (p : A -> bool) l : sumN f (filter p l) = sumN (fun x => if p x then f x else 0%N) l.
Proof. unfold sumN. induction l as [|x l IH]; [reflexivity|]. cbn. destruct (p x); cbn; rewrite IH; lia. Qed.

Section Sizes.
Context (cond : bool) (G C : mg) (c : N) (MG : mvalid G) (Co : cactus_of G C c).
Notation n := (m_n C).
Notation ng := (m_n G).
Definition gw (v : nat) : N := if cond then bsum ng (mwt G v) else 1%N.
Lemma deg_gw v : v < ng -> nth v (m_deg G) 0%N = bsum ng (mwt G v).
Proof. intro H. destruct MG as (VG & (_ & DG) & _). rewrite DG by exact H. symmetry. apply (row_weight (m_rows G) VG). Qed.
Lemma cont_in x v : x < n -> In v (nth x (m_cont C) []) -> v < ng /\ mpos C v = x.
Proof. intros Hx I. apply (proj2 (co_groups _ _ _ Co) x v Hx) in I. rewrite (proj1 (co_all _ _ _ Co)) in I. exact I. Qed.
Lemma vw_gw x : x < n -> vertex_weight cond G C x = sumN gw (nth x (m_cont C) []).
Proof.
  intro Hx. unfold vertex_weight, gw. destruct cond.
  - apply sumN_ext. intros v I. apply deg_gw. apply (cont_in x v Hx I).
  - induction (nth x (m_cont C) []) as [|v l IH]; [reflexivity|]. cbn [length]. rewrite Nat2N.inj_succ. unfold sumN in *. cbn. rewrite <- IH. lia.
Qed.
Lemma size_eq f : wsum n (vertex_weight cond G C) f = set_size cond ng (mwt G) (fun v => f (mpos C v)).
Proof.
  unfold wsum, set_size. transitivity (bsum n (fun x => bsum ng (fun v => if mpos C v =? x then (if f (mpos C v) then gw v else 0%N) else 0%N))).
  - apply bsum_ext. intros x Hx. rewrite (vw_gw x Hx). transitivity (sumN (fun v => if f x then gw v else 0%N) (nth x (m_cont C) [])).
    + destruct (f x); [reflexivity|]. symmetry. apply sumN_zero. reflexivity.
    + unfold bsum. rewrite <- (sumN_filter_split' (fun v => if f (mpos C v) then gw v else 0%N) (fun v => mpos C v =? x)).
      transitivity (sumN (fun v => if f (mpos C v) then gw v else 0%N) (nth x (m_cont C) [])); [apply sumN_ext; intros v I; rewrite (proj2 (cont_in x v Hx I)); reflexivity|].
      apply sumN_perm. apply NoDup_Permutation; [apply (co_once _ _ _ Co)|apply NoDup_filter; apply seq_NoDup|]. intro v. rewrite filter_In, in_seq, Nat.eqb_eq. split.
      * intro I. destruct (cont_in x v Hx I). split; [lia|auto].
      * intros [L E]. apply (proj2 (co_groups _ _ _ Co) x v Hx). rewrite (proj1 (co_all _ _ _ Co)). split; [lia|exact E].
  - rewrite bsum_swap. apply bsum_ext. intros v Hv. rewrite (bsum_ext n _ (fun x => if x =? mpos C v then (if f (mpos C v) then gw v else 0%N) else 0%N)) by (intros x _; rewrite (Nat.eqb_sym x); reflexivity).
    rewrite (bsum_single n (fun _ => if f (mpos C v) then gw v else 0%N)) by (apply (co_range _ _ _ Co); exact Hv). reflexivity.
Qed.
Lemma total_eq : total_weight cond G C = set_size cond ng (mwt G) (fun _ => true).
Proof.
  unfold total_weight, set_size. destruct cond.
  - destruct MG as (_ & (Ld & _) & _). rewrite <- (bsum_list (fun d => d) (m_deg G) 0%N). rewrite Ld. apply bsum_ext. intros v Hv. apply deg_gw. exact Hv.
  - rewrite (proj2 (co_all _ _ _ Co)). unfold bsum. generalize 0. induction ng as [|k IH]; intro a; [reflexivity|]. cbn [seq]. rewrite Nat2N.inj_succ. unfold sumN in *. cbn. rewrite <- IH. lia.
Qed.
Lemma size_neg S : (set_size cond ng (mwt G) S + set_size cond ng (mwt G) (fun v => negb (S v)) = set_size cond ng (mwt G) (fun _ => true))%N.
Proof. unfold set_size. rewrite <- bsum_add. apply bsum_ext. intros v _. destruct (S v); cbn; lia. Qed.
Lemma balance_eq f : light (total_weight cond G C) (wsum n (vertex_weight cond G C) f) = balance cond ng (mwt G) (fun v => f (mpos C v)).
Proof. rewrite size_eq, total_eq. unfold light, balance. pose proof (size_neg (fun v => f (mpos C v))). lia. Qed.
Lemma size_pos S u : u < ng -> S u = true -> (exists v, v < ng /\ mwt G u v <> 0%N) -> (0 < set_size cond ng (mwt G) S)%N.
Proof.
  intros Hu Su (v & Hv & Z). eapply N.lt_le_trans; [|apply (bsum_In_le ng _ u Hu)]. cbn beta. rewrite Su. destruct cond; [|reflexivity]. eapply N.lt_le_trans; [|apply (bsum_In_le ng _ v Hv)]. lia.
Qed.
Lemma balance_pos S : (0 < c)%N -> cutw ng (mwt G) S = c -> (0 < balance cond ng (mwt G) S)%N.
Proof.
  intros c0 E. destruct (cutw_pos ng (mwt G) S) as (u & v & Hu & Hv & Su & Sv & Z); [lia|]. unfold balance. apply N.min_glb_lt.
  - apply (size_pos S u Hu Su). exists v. auto.
  - apply (size_pos _ v Hv); [rewrite Sv; reflexivity|]. exists u. split; [exact Hu|]. rewrite (mwt_symm G MG v u) by auto. exact Z.
Qed.
End Sizes.

Lemma balance_ext d n W S S' : (forall v, v < n -> S v = S' v) -> balance d n W S = balance d n W S'.
Proof. intro H. unfold balance, set_size. f_equal; apply bsum_ext; intros v Hv; rewrite (H v Hv); reflexivity. Qed.
Lemma combine_seq_in {A} (l : list A) : forall a e x, In (e, x) (combine (seq a (length l)) l) <-> a <= e /\ nth_error l (e - a) = Some x.
Proof.
  induction l as [|y l IH]; intros a e x; [cbn; split; [intros []|intros [_ H]; destruct (e - a); discriminate H]|]. cbn [length seq combine In]. rewrite IH. split.
  - intros [E|[A' B]]; [injection E as -> ->; split; [lia|rewrite Nat.sub_diag; reflexivity]|]. split; [lia|]. replace (e - a) with (S (e - S a)) by lia. exact B.
  - intros [A' B]. destruct (Nat.eq_dec e a) as [->|N]; [left; rewrite Nat.sub_diag in B; injection B as ->; reflexivity|]. right. split; [lia|]. replace (e - a) with (S (e - S a)) in B by lia. exact B.
Qed.
Lemma cut_edges_in G inc v e : In (v, e) (cut_edges G inc) <-> v < m_n G /\ exists t w r, slot (m_rows G) v e = Some (t, w, r) /\ nth v inc false <> nth t inc false.
Proof.
  unfold cut_edges. rewrite in_flat_map. split.
  - intros (x & Hx & I). apply in_map_iff in I as ([e' [[t w] r]] & E & I). injection E as -> ->. apply filter_In in I as [I F]. apply combine_seq_in in I as [_ I]. rewrite Nat.sub_0_r in I. apply in_seq in Hx. split; [lia|]. exists t, w, r. split; [exact I|].
    cbn [fst snd] in F. intro Q. rewrite Q, Bool.eqb_reflx in F. discriminate F.
  - intros (Hv & t & w & r & Sl & N). exists v. split; [apply in_seq; lia|]. apply in_map_iff. exists (e, (t, w, r)). split; [reflexivity|]. apply filter_In. split; [apply combine_seq_in; rewrite Nat.sub_0_r; split; [lia|exact Sl]|].
    cbn [fst snd]. destruct (nth v inc false), (nth t inc false); try reflexivity; congruence.
Qed.

(** whatever the start vertex, the marked set is a minimum cut of the graph that no minimum cut exceeds in balance, and the edges
    reported are those between the sides *)
Theorem C66_most_balanced : forall cond G C c start, mvalid G -> mvalid C -> simple_rows C -> is_mincut (m_n G) (mwt G) c -> (0 < c)%N -> cactus_of G C c ->
  start < m_n C -> exists inc es, find_cut cond G C c start true = Some (Some inc, es) /\ length inc = m_n G /\
    let S := fun v => nth v inc false in
    proper (m_n G) S /\ cutw (m_n G) (mwt G) S = c /\
    (forall S', proper (m_n G) S' -> cutw (m_n G) (mwt G) S' = c -> (balance cond (m_n G) (mwt G) S' <= balance cond (m_n G) (mwt G) S)%N) /\
    (forall v e, In (v, e) es <-> v < m_n G /\ exists t w r, slot (m_rows G) v e = Some (t, w, r) /\ S v <> S t).
Proof.
  intros cond G C c start MG MC SR [(S0 & P0 & E0) _] c0 Co Hs.
  pose proof (balance_eq cond G C c MG Co) as Be.
  assert (Pull : forall S', proper (m_n G) S' -> cutw (m_n G) (mwt G) S' = c -> exists f, proper (m_n C) f /\ cutw (m_n C) (mwt C) f = c /\ balance cond (m_n G) (mwt G) (fun v => f (mpos C v)) = balance cond (m_n G) (mwt G) S').
  { intros S' P' E'. destruct (co_complete _ _ _ Co S' P' E') as (f & Cf & Ff). exists f. split; [|split; [exact Cf|apply balance_ext; exact Ff]].
    destruct P' as [(u & Hu & Fu) (v & Hv & Fv)]. split; [exists (mpos C u)|exists (mpos C v)]; (split; [apply (co_range _ _ _ Co); assumption|rewrite Ff by assumption; assumption]). }
  destruct (Pull S0 P0 E0) as (f0 & Pf0 & Cf0 & B0).
  assert (Lo : (0 < light (total_weight cond G C) (wsum (m_n C) (vertex_weight cond G C) f0))%N) by (rewrite Be, B0; apply (balance_pos cond G c MG S0 c0 E0)).
  assert (HT : sumN (vertex_weight cond G C) (seq 0 (m_n C)) = total_weight cond G C).
  { rewrite (total_eq cond G C c MG Co). rewrite <- (size_eq cond G C c MG Co (fun _ => true)). reflexivity. }
  assert (T0 : (0 < total_weight cond G C)%N) by (unfold light in Lo; clear - Lo; lia).
  destruct (find_ok cond G C c start (proj1 MC) SR (co_weights _ _ _ Co) HT T0 Hs c0 (co_cactus _ _ _ Co) (m_pos C) (co_groups _ _ _ Co) (proj1 (co_all _ _ _ Co)) (co_range _ _ _ Co)) as (f & inc & Fi & Li & Hi & Pf & Cf & Mx).
  { exists f0. auto. }
  exists inc, (cut_edges G inc). split; [exact Fi|]. split; [exact Li|]. cbv zeta.
  destruct (co_sound _ _ _ Co f Pf Cf) as [Ps Es].
  assert (Hi' : forall v, v < m_n G -> nth v inc false = f (mpos C v)) by exact Hi.
  split; [|split; [|split]].
  - destruct Ps as [(u & Hu & Fu) (v & Hv & Fv)]. split; [exists u|exists v]; (split; [assumption|]); rewrite Hi' by assumption; assumption.
  - rewrite <- Es. apply cutw_ext. exact Hi'.
  - intros S' P' E'. destruct (Pull S' P' E') as (f' & Pf' & Cf' & B'). rewrite <- B', <- Be. rewrite (balance_ext cond (m_n G) (mwt G) _ _ Hi'). rewrite <- Be. apply Mx; assumption.
  - intros v e. apply cut_edges_in.
Qed.

(** *** examples *)
Fixpoint seqs (n k : nat) : list (list nat) :=
  match k with 0 => [[]] | S k' => flat_map (fun l => map (fun x => x :: l) (seq 0 n)) (seqs n k') end.
Lemma seqs_in n l : (forall x, In x l -> x < n) -> In l (seqs n (length l)).
Proof.
  induction l as [|x l IH]; intro H; [left; reflexivity|]. cbn. apply in_flat_map. exists l. split; [apply IH; intros y I; apply H; right; exact I|]. apply in_map_iff. exists x. split; [reflexivity|]. apply in_seq. specialize (H x (or_introl eq_refl)). lia.
Qed.
Fixpoint nodupb (l : list nat) : bool := match l with [] => true | x :: l' => negb (existsb (Nat.eqb x) l') && nodupb l' end.
Lemma nodupb_ok l : nodupb l = true <-> NoDup l.
Proof.
  induction l as [|x l IH]; cbn; [split; [constructor|reflexivity]|]. rewrite andb_true_iff, negb_true_iff, IH. split.
  - intros [A B]. constructor; [|exact B]. intro I. rewrite (proj2 (existsb_exists _ _)) in A; [discriminate A|]. exists x. split; [exact I|apply Nat.eqb_refl].
  - intro H. inversion H; subst. split; [|assumption]. destruct (existsb (Nat.eqb x) l) eqn:E; [|reflexivity]. exfalso. apply existsb_exists in E as (y & I & E). apply Nat.eqb_eq in E. subst y. contradiction.
Qed.
Definition cycleb (n : nat) (W : wfun) (q : list nat) : bool :=
  (3 <=? length q) && nodupb q && forallb (fun i => (cv q i <? n) && negb (W (cv q i) (cv q (S i)) =? 0)%N) (seq 0 (length q)).
Lemma cycleb_ok n W q : cycleb n W q = true <-> cycle n W q.
Proof.
  unfold cycleb, cycle. rewrite !andb_true_iff, Nat.leb_le, nodupb_ok, forallb_forall. split.
  - intros [[A B] D]. split; [exact A|]. split; [exact B|]. intro i. assert (Ne : q <> []) by (intros ->; cbn in A; lia). rewrite <- (cv_mod q i), <- (cv_succ q i) by exact Ne.
    specialize (D (i mod length q)). rewrite in_seq in D. specialize (D ltac:(split; [lia|apply Nat.mod_upper_bound; lia])). apply andb_true_iff in D as [D1 D2]. apply Nat.ltb_lt in D1. rewrite negb_true_iff, N.eqb_neq in D2. auto.
  - intros (A & B & D). split; [auto|]. intros i _. destruct (D i) as [D1 D2]. apply andb_true_iff. split; [apply Nat.ltb_lt; exact D1|]. rewrite negb_true_iff, N.eqb_neq. exact D2.
Qed.
Definition cedgeb (q : list nat) (a b : nat) : bool :=
  existsb (fun i => ((a =? cv q i) && (b =? cv q (S i))) || ((b =? cv q i) && (a =? cv q (S i)))) (seq 0 (length q)).
Lemma cedgeb_ok q a b : cedgeb q a b = true <-> cycle_edge q a b.
Proof.
  unfold cedgeb, cycle_edge. rewrite existsb_exists. split; intros (i & A & B); exists i.
  - apply in_seq in A. rewrite orb_true_iff, !andb_true_iff, !Nat.eqb_eq in B. split; [lia|exact B].
  - split; [apply in_seq; lia|]. rewrite orb_true_iff, !andb_true_iff, !Nat.eqb_eq. exact B.
Qed.
Definition cycles (n : nat) (W : wfun) : list (list nat) := filter (cycleb n W) (flat_map (seqs n) (seq 0 (S n))).
Lemma cycles_in n W q : In q (cycles n W) <-> cycle n W q.
Proof.
  unfold cycles. rewrite filter_In, cycleb_ok. split; [tauto|]. intro H. split; [|exact H]. pose proof H as (A & B & D).
  assert (L : forall x, In x q -> x < n). { intros x I. apply (In_nth _ _ 0) in I as (i & Hi & <-). destruct (D i) as [D1 _]. unfold cv in D1. rewrite Nat.mod_small in D1 by exact Hi. exact D1. }
  apply in_flat_map. exists (length q). split; [|apply seqs_in; exact L]. apply in_seq. assert (X : length q <= length (seq 0 n)) by (apply NoDup_incl_length; [exact B|intros x I; apply in_seq; specialize (L x I); lia]). rewrite seq_length in X. lia.
Qed.
Definition cactusb (G : mg) (c : N) : bool :=
  let n := m_n G in let W := mwt G in let Q := cycles n W in
  forallb (fun l => negb (propb l) || negb (val G l =? 0)%N) (bools n) &&
  forallb (fun u => forallb (fun v => (W u v =? 0)%N || ((W u v =? c)%N && forallb (fun q => negb (cedgeb q u v)) Q) || ((2 * W u v =? c)%N && existsb (fun q => cedgeb q u v) Q)) (seq 0 n)) (seq 0 n) &&
  forallb (fun q => forallb (fun q' => negb (existsb (fun a => existsb (fun b => cedgeb q a b && cedgeb q' a b) (seq 0 n)) (seq 0 n)) ||
                                         forallb (fun i => cedgeb q' (cv q i) (cv q (S i))) (seq 0 (length q))) Q) Q.
Lemma cactusb_ok G c : cactusb G c = true -> cactus (m_n G) (mwt G) c.
Proof.
  unfold cactusb. cbv zeta. rewrite !andb_true_iff, !forallb_forall. intros [[A B] D]. constructor.
  - intros S P. specialize (A _ (lof_in (m_n G) S)). rewrite (proper_lof _ _ P), lof_val in A. cbn [negb orb] in A. rewrite negb_true_iff, N.eqb_neq in A. exact A.
  - intros u v Hu Hv Z. specialize (B u ltac:(apply in_seq; lia)). rewrite forallb_forall in B. specialize (B v ltac:(apply in_seq; lia)). rewrite !orb_true_iff, !andb_true_iff in B. destruct B as [[B|[B1 B2]]|[B1 B2]].
    + apply N.eqb_eq in B. contradiction.
    + left. apply N.eqb_eq in B1. split; [exact B1|]. intros q Hq Hc. rewrite forallb_forall in B2. apply cycles_in in Hq. specialize (B2 q Hq). rewrite (proj2 (cedgeb_ok q u v) Hc) in B2. discriminate B2.
    + right. apply N.eqb_eq in B1. split; [exact B1|]. apply existsb_exists in B2 as (q & Hq & Hc). exists q. split; [apply cycles_in; exact Hq|apply cedgeb_ok; exact Hc].
  - intros q q' a b Cq Cq' E E' x y Exy. pose proof (proj2 (cycles_in _ _ _) Cq) as I. pose proof (proj2 (cycles_in _ _ _) Cq') as I'. specialize (D q I). rewrite forallb_forall in D. specialize (D q' I'). apply orb_true_iff in D as [D|D].
    + exfalso. assert (La : a < m_n G /\ b < m_n G) by (destruct E as (i & _ & [[-> ->]|[-> ->]]); split; apply Cq). rewrite negb_true_iff in D. assert (X : existsb (fun a => existsb (fun b => cedgeb q a b && cedgeb q' a b) (seq 0 (m_n G))) (seq 0 (m_n G)) = true); [|congruence].
      apply existsb_exists. exists a. split; [apply in_seq; lia|]. apply existsb_exists. exists b. split; [apply in_seq; lia|]. apply andb_true_iff. split; apply cedgeb_ok; assumption.
    + rewrite forallb_forall in D. destruct Exy as (i & Hi & [[-> ->]|[-> ->]]); specialize (D i ltac:(apply in_seq; lia)); apply cedgeb_ok in D; [exact D|apply cycle_edge_sym; exact D].
Qed.
Definition soundb (G : mg) (c : N) (C : mg) : bool :=
  forallb (fun f => negb (propb f) || negb (val C f =? c)%N ||
    let l := map (fun x => nth (mpos C x) f false) (seq 0 (m_n G)) in propb l && (val G l =? c)%N) (bools (m_n C)).
Lemma soundb_ok G c C : soundb G c C = true -> (forall v, v < m_n G -> mpos C v < m_n C) -> sound (m_n G) (mwt G) c (m_n C) (mwt C) (mpos C).
Proof.
  intros H Rg f P E. unfold soundb in H. rewrite forallb_forall in H. specialize (H _ (lof_in (m_n C) f)). rewrite (proper_lof _ _ P), lof_val, E, N.eqb_refl in H. cbn [negb orb] in H. cbv zeta in H. apply andb_true_iff in H as [H1 H2]. apply N.eqb_eq in H2.
  assert (Ex : map (fun x => nth (mpos C x) (lof (m_n C) f) false) (seq 0 (m_n G)) = lof (m_n G) (fun x => f (mpos C x))).
  { apply map_ext_in. intros x I. apply in_seq in I. apply lof_nth. apply Rg. lia. }
  rewrite Ex in H1, H2. split; [|rewrite <- H2; symmetry; apply lof_val].
  pose proof (proj1 (propb_proper (m_n G) (lof (m_n G) (fun x => f (mpos C x))) ltac:(unfold lof; rewrite map_length, seq_length; reflexivity)) H1) as [(u & Hu & Fu) (v & Hv & Fv)].
  rewrite lof_nth in Fu by exact Hu. rewrite lof_nth in Fv by exact Hv. split; [exists u|exists v]; auto.
Qed.
Definition groupsb (G C : mg) : bool :=
  (m_n C <=? length (m_cont C)) && (length (m_pos C) =? m_n G) && (m_orig C =? m_n G) && forallb (fun v => mpos C v <? m_n C) (seq 0 (m_n G)) &&
  forallb nodupb (m_cont C) && forallb (forallb (fun h : half => negb (snd (fst h) =? 0)%N)) (m_rows C) &&
  forallb (fun x => forallb (fun v => (v <? m_n G) && (mpos C v =? x)) (nth x (m_cont C) [])) (seq 0 (m_n C)) &&
  forallb (fun v => existsb (Nat.eqb v) (nth (mpos C v) (m_cont C) [])) (seq 0 (m_n G)).
Lemma cactus_of_b G C c : groupsb G C = true -> cactusb C c = true -> soundb G c C = true -> fullb G c C = true -> cactus_of G C c.
Proof.
  unfold groupsb. rewrite !andb_true_iff, Nat.leb_le, !Nat.eqb_eq, !forallb_forall. intros [[[[[[[A1 A2] A3] A4] A5] A6] A7] A8] B D E.
  assert (Rg : forall v, v < m_n G -> mpos C v < m_n C) by (intros v Hv; apply Nat.ltb_lt; apply A4; apply in_seq; lia).
  constructor.
  - apply cactusb_ok. exact B.
  - intros v t w r I. destruct (Nat.lt_ge_cases v (length (m_rows C))) as [L|L]; [|rewrite nth_overflow in I by exact L; destruct I]. specialize (A6 _ (nth_In _ [] L)). rewrite forallb_forall in A6. specialize (A6 _ I). cbn in A6. rewrite negb_true_iff, N.eqb_neq in A6. exact A6.
  - split; [exact A1|]. intros x v Hx. rewrite A2. split.
    + intro I. specialize (A7 x ltac:(apply in_seq; lia)). rewrite forallb_forall in A7. specialize (A7 v I). apply andb_true_iff in A7 as [L Q]. apply Nat.ltb_lt in L. apply Nat.eqb_eq in Q. auto.
    + intros [L Q]. specialize (A8 v ltac:(apply in_seq; lia)). apply existsb_exists in A8 as (y & I & Z). apply Nat.eqb_eq in Z. subst y. unfold mpos in I. rewrite Q in I. exact I.
  - intro x. destruct (Nat.lt_ge_cases x (length (m_cont C))) as [L|L]; [|rewrite nth_overflow by exact L; constructor]. apply nodupb_ok. apply A5. apply nth_In. exact L.
  - auto.
  - exact Rg.
  - apply soundb_ok; assumption.
  - apply fullb_ok. exact E.
Qed.

(* a triangle on 0, 1, 2 and a heavy triangle on 3, 4, 5, joined by an edge of weight 2; the heavy triangle is one vertex of the cactus *)
Definition bg_ops : list mop := [NewEdge 0 1 1%N; NewEdge 0 2 1%N; NewEdge 1 2 1%N; NewEdge 2 3 2%N; NewEdge 3 4 5%N; NewEdge 3 5 5%N; NewEdge 4 5 5%N].
Definition bg : mg := mg_of 6 bg_ops.
Definition bc_ops : list mop := [NewEdge 0 1 1%N; NewEdge 0 2 1%N; NewEdge 1 2 1%N; NewEdge 2 3 2%N].
Definition with_groups (C : mg) (pos : list nat) (cont : list (list nat)) : mg :=
  mk_mg (m_rows C) (m_deg C) (m_part C) (m_cut C) pos cont (m_last C) (m_ne C) (m_pc C) (length pos).
Definition bc : mg := with_groups (mg_of 4 bc_ops) [0; 1; 2; 3; 3; 3] [[0]; [1]; [2]; [3; 4; 5]].
Definition simpleb (G : mg) : bool := forallb (fun row => nodupb (map (fun h : half => fst (fst h)) row)) (m_rows G).
Lemma simpleb_ok G : simpleb G = true -> simple_rows G.
Proof.
  intros H v. destruct (Nat.lt_ge_cases v (length (m_rows G))) as [L|L]; [|rewrite nth_overflow by exact L; constructor]. unfold simpleb in H. rewrite forallb_forall in H. apply nodupb_ok. apply (H _ (nth_In _ [] L)).
Qed.
Example c66_hyps : mvalid bg /\ mvalid bc /\ simple_rows bc /\ is_mincut (m_n bg) (mwt bg) 2 /\ cactus_of bg bc 2.
Proof.
  destruct (mg_of_valid 6 bg_ops eq_refl) as [A _]. destruct (mg_of_valid 4 bc_ops eq_refl) as [B _].
  split; [exact A|]. split; [exact B|]. split; [apply simpleb_ok; vm_compute; reflexivity|]. split; [apply (is_mcb_ok bg 2 [true; true; true; false; false; false]); vm_compute; reflexivity|].
  apply cactus_of_b; vm_compute; reflexivity.
Qed.
(* the cut of the tree edge; three vertices on each side *)
Example c66_run : find_cut false bg bc 2 0 true = Some (Some [true; true; true; false; false; false], [(2, 2); (3, 0)]) /\
  forallb (fun s => match find_cut false bg bc 2 s true with Some (Some inc, _) => Bool.eqb (nth 0 inc false) (nth 1 inc false) && negb (Bool.eqb (nth 0 inc false) (nth 3 inc false)) | _ => false end) [0; 1; 2; 3] = true.
Proof. split; vm_compute; reflexivity. Qed.

(* a cycle of four vertices, its own cactus *)
Definition b4_ops : list mop := [NewEdge 0 1 1%N; NewEdge 1 2 1%N; NewEdge 2 3 1%N; NewEdge 0 3 1%N].
Definition b4 : mg := mg_of 4 b4_ops.
Example c66_cycle_hyps : mvalid b4 /\ simple_rows b4 /\ is_mincut (m_n b4) (mwt b4) 2 /\ cactus_of b4 b4 2.
Proof.
  destruct (mg_of_valid 4 b4_ops eq_refl) as [A _]. split; [exact A|]. split; [apply simpleb_ok; vm_compute; reflexivity|]. split; [apply (is_mcb_ok b4 2 [true; true; false; false]); vm_compute; reflexivity|].
  apply cactus_of_b; vm_compute; reflexivity.
Qed.
Example c66_cycle_run : find_cut true b4 b4 2 1 true = Some (Some [false; false; true; true], [(0, 1); (1, 1); (2, 0); (3, 1)]).
Proof. vm_compute. reflexivity. Qed.

(* simple_rows is needed: with every edge of a path of four vertices given as two parallel edges of weight 1 no cut is found, and
   the marked set has balance 1 where 2 is possible *)
Definition bp : mg := mg_of 4 [NewEdge 0 1 1%N; NewEdge 0 1 1%N; NewEdge 1 2 1%N; NewEdge 1 2 1%N; NewEdge 2 3 1%N; NewEdge 2 3 1%N].
Example c66_parallel : simpleb bp = false /\ run_dfs false bp bp 2 0 = Some (0, 0, 0, 0, false, 0%N) /\
  (exists es, find_cut false bp bp 2 0 true = Some (Some [true; false; false; false], es)) /\
  val bp [true; true; false; false] = 2%N /\ balance false 4 (mwt bp) (fun v => v <? 2) = 2%N.
Proof. split; [vm_compute; reflexivity|]. split; [vm_compute; reflexivity|]. split; [eexists; vm_compute; reflexivity|]. split; vm_compute; reflexivity. Qed.

Print Assumptions C66_most_balanced.
