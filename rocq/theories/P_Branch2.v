(* P_Branch2.v - branching is exhaustive. *)
From Coq Require Import Permutation.
From Verif Require Import SpecRel P_UnionFind P_Cut P_Mutable P_Mutable4 P_Mutable7 P_MutableIO P_Multi P_Kernel P_KernelC P_Kernel3 P_Kernel5 P_ContractStd SpecMutable P_MultiCheck.
From Verif Require Export P_Branch.

(** ** the optimum exists *)
Lemma opt_exists n W T : (forall t, In t T -> t < n) -> (exists f, separates n T f) -> exists c, mtopt n W T c.
Proof.
  intros HT [f F]. remember (mtcost n W f) as c eqn:E. revert f F E. induction c as [c IH] using (well_founded_induction N.lt_wf_0). intros f F E.
  destruct (lower_check n W T c) eqn:L; [exists c; split; [exists f; auto|apply lower_check_ok; auto]|].
  assert (X : exists l, In l (assigns n (length T)) /\ sepb T l = true /\ N.lt (mtcost n W (fun v => nth v l 0)) c).
  { unfold lower_check in L. revert L. generalize (assigns n (length T)). induction l as [|a l IHl]; [discriminate|]. cbn [forallb]. intro L.
    destruct (negb (sepb T a) || N.leb c (mtcost n W (fun v => nth v a 0))) eqn:Q.
    - destruct (IHl L) as (x & I & R). exists x. split; [right; auto|auto].
    - apply orb_false_elim in Q. destruct Q as [Q1 Q2]. apply Bool.negb_false_iff in Q1. apply N.leb_gt in Q2. exists a. split; [left; auto|auto]. }
  destruct X as (l & I & SB & LT). apply (IH _ LT (fun v => nth v l 0)); [|auto].
  assert (AL : forall m k x, In x (assigns m k) -> length x = m /\ forall y, In y x -> y < k).
  { clear. induction m as [|m IH]; intros k x H; cbn [assigns] in H.
    - destruct H as [<-|[]]. split; [auto|intros ? []].
    - apply in_flat_map in H. destruct H as (l & Hl & H). apply in_map_iff in H. destruct H as (b & <- & Hb). apply in_seq in Hb. destruct (IH k l Hl) as [A B].
      split; [cbn; auto|]. intros y [<-|Hy]; [lia|auto]. }
  destruct (AL _ _ _ I) as [LL LB]. split.
  - intros v Hv. apply LB, nth_In. lia.
  - intros i Hi. unfold sepb in SB. rewrite forallb_forall in SB. apply Nat.eqb_eq, SB, in_seq. lia.
Qed.

Lemma kstate_sep G maps origs T : kstate G maps origs T -> 0 < length T -> exists f, separates (m_n G) T f.
Proof.
  intros KS PT. exists (fun v => if in_dec Nat.eq_dec v T then idx v T else 0). apply separates_of; [apply (ks_nd _ _ _ _ KS)| |].
  - intros v Hv. destruct (in_dec Nat.eq_dec v T); [apply idx_nth; auto|auto].
  - intros t Ht. destruct (in_dec Nat.eq_dec t T); [auto|contradiction].
Qed.

Notation cost G f := (mtcost (m_n G) (wt (adj (m_rows G))) f).

Lemma edge_to_ok c : forall row k, match edge_to row c k with
  | Some e => k <= e /\ exists w r, nth_error row (e - k) = Some (c, w, r)
  | None => ~ In c (tgts row) end.
Proof.
  induction row as [|[[t w] r] row IH]; intro k; cbn [edge_to]; [intros []|]. destruct (Nat.eqb_spec t c) as [->|N].
  - split; [auto|]. rewrite Nat.sub_diag. exists w, r. reflexivity.
  - specialize (IH (S k)). destruct (edge_to row c (S k)) as [e|].
    + destruct IH as (L & w' & r' & E). split; [lia|]. exists w', r'. replace (e - k) with (S (e - S k)) by lia. exact E.
    + intros [Q|Q]; [cbn in Q; congruence|auto].
Qed.

Lemma wt_tgts R a b : ~ In b (tgts (nth a R [])) -> wt (adj R) a b = 0%N.
Proof.
  intro H. unfold wt. rewrite adj_nth, sumN_filter, sumN_map. apply sumN_zero. intros h Hh. cbn [fst snd].
  destruct (Nat.eqb_spec (fst (fst h)) b) as [<-|]; [|reflexivity]. exfalso. apply H. apply in_map_iff. exists h. auto.
Qed.

(** ** one child *)
Section Child.
Context (G : mg) (maps : list (list nat)) (origs T : list nat) (vtx : nat).
Context (KS : kstate G maps origs T) (SI : simple (m_rows G)) (HV : vtx < m_n G) (NV : ~ In vtx T).
Let n := m_n G.
Let W := wt (adj (m_rows G)).
Let ts := live G T.

Definition PP (ctr : option nat) (t : nat) : bool := isterm ts t && match ctr with Some c => negb (t =? c) | None => true end.

Lemma child_start ctr : branch_child maps origs G ts vtx ctr =
  match del_edges_at (length (nth vtx (m_rows G) [])) (PP ctr) vtx 0 (G, 0%N) with
  | None => None
  | Some (G1, w) =>
      match (match ctr with
             | Some c => match edge_to (nth vtx (m_rows G1) []) c 0 with Some e => contract_edge_std G1 vtx e | None => Some G1 end
             | None => Some G1
             end) with
      | None => None
      | Some G2 => finish_terms maps origs G2 w
      end
  end.
Proof.
  unfold branch_child. destruct (nth vtx (m_cont G) []) as [|cv l] eqn:E; [exfalso; apply (ks_some _ _ _ _ KS vtx HV E)|].
  assert (X : In cv (nth vtx (m_cont G) [])) by (rewrite E; left; auto). apply (proj2 (ks_groups _ _ _ _ KS) vtx cv HV) in X. destruct X as [X1 X2].
  rewrite (nth_error_nth' (m_pos G) 0 X1), X2. reflexivity.
Qed.

Lemma ts_in t : In t ts -> In t T. Proof. intro H. apply filter_In in H. tauto. Qed.
Lemma term_diff f s t : separates n T f -> In s T -> In t T -> s <> t -> f s <> f t.
Proof.
  intros F Hs Ht N E. apply N. pose proof (ks_nd _ _ _ _ KS) as ND. rewrite (separates_in _ _ _ F ND s Hs), (separates_in _ _ _ F ND t Ht) in E.
  rewrite <- (proj1 (idx_nth s T Hs)), <- (proj1 (idx_nth t T Ht)), E. reflexivity.
Qed.

Theorem child_some c : In c ts -> In c (tgts (nth vtx (m_rows G) [])) ->
  exists G' ts' w T', branch_child maps origs G ts vtx (Some c) = Some (G', ts', w) /\ kstate G' maps origs T' /\ map fst ts' = live G' T' /\ length T' = length T /\ noterm (m_rows G') T' /\
    (forall f', separates (m_n G') T' f' -> exists f, separates n T f /\ mtcost n W f = (cost G' f' + w)%N) /\
    (forall f, separates n T f -> f vtx = f c -> exists f', separates (m_n G') T' f' /\ (cost G' f' + w)%N = mtcost n W f).
Proof.
  intros Hc Ec. rewrite child_start.
  destruct (del_edges_at_ok vtx n (PP (Some c)) (length (nth vtx (m_rows G) [])) G 0%N 0 (ks_valid _ _ _ _ KS) eq_refl HV) as (G1 & w1 & -> & D & Z).
  { unfold rl. lia. } { intros b t Hb. lia. }
  rewrite N.add_0_l. pose proof (vdel_kstate _ _ _ _ _ _ _ _ D KS) as KS1. pose proof (v_simple _ _ _ _ _ _ D SI) as SI1.
  assert (Pc : PP (Some c) c = false) by (unfold PP; rewrite Nat.eqb_refl; apply andb_false_r).
  pose proof (edge_to_ok c (nth vtx (m_rows G1) []) 0) as ET.
  destruct (edge_to (nth vtx (m_rows G1) []) c 0) as [e|]; [|exfalso; apply ET; apply (v_tgt _ _ _ _ _ _ D c Pc); auto].
  destruct ET as (_ & w & r & S). rewrite Nat.sub_0_r in S.
  destruct (contract_state G1 vtx e c w r maps origs T KS1 SI1 S ltac:(tauto)) as (G2 & g & -> & KS2 & UP & DN).
  destruct (finish_terms_ok G2 maps origs (map g T) w1 KS2) as (G3 & ts3 & w3 & E3 & KS3 & L3 & N3 & Z3 & C3).
  exists G3, ts3, (w1 + w3)%N, (map g T). split; [exact E3|]. split; [auto|]. split; [auto|]. split; [apply map_length|]. split; [auto|].
  pose proof (v_n _ _ _ _ _ _ D) as N1. rewrite N1 in UP, DN. fold n in UP, DN.
  assert (CV : forall f, separates n T f -> f vtx = f c -> (mtcost n (wt (adj (m_rows G1))) f + w1 = mtcost n W f)%N).
  { intros f F Q. apply (v_cost _ _ _ _ _ _ D). intros t Ht Pt. unfold PP in Pt. apply andb_prop in Pt. destruct Pt as [Pt Nt]. apply isterm_In in Pt.
    apply Bool.negb_true_iff, Nat.eqb_neq in Nt. rewrite Q. apply term_diff; auto using ts_in. }
  split.
  - intros f' F'. rewrite N3 in F' |- *. destruct (UP f' F') as (F & Q & C). exists (fun u => f' (g u)). split; [auto|].
    rewrite <- (CV _ F Q). rewrite <- C, <- (C3 f' F'). lia.
  - intros f F Q. destruct (DN f F Q) as (f' & F' & C). exists f'. rewrite N3. split; [auto|]. rewrite <- (CV f F Q), <- C, <- (C3 f' F'). lia.
Qed.

Theorem child_none :
  exists G' ts' w T', branch_child maps origs G ts vtx None = Some (G', ts', w) /\ kstate G' maps origs T' /\ map fst ts' = live G' T' /\ length T' = length T /\ noterm (m_rows G') T' /\
    (forall f', separates (m_n G') T' f' -> exists f, separates n T f /\ (mtcost n W f <= cost G' f' + w)%N) /\
    (forall f, separates n T f -> (forall t, In t ts -> In t (tgts (nth vtx (m_rows G) [])) -> f vtx <> f t) ->
       exists f', separates (m_n G') T' f' /\ (cost G' f' + w)%N = mtcost n W f).
Proof.
  rewrite child_start.
  destruct (del_edges_at_ok vtx n (PP None) (length (nth vtx (m_rows G) [])) G 0%N 0 (ks_valid _ _ _ _ KS) eq_refl HV) as (G1 & w1 & -> & D & Z).
  { unfold rl. lia. } { intros b t Hb. lia. }
  rewrite N.add_0_l. pose proof (vdel_kstate _ _ _ _ _ _ _ _ D KS) as KS1.
  destruct (finish_terms_ok G1 maps origs T w1 KS1) as (G3 & ts3 & w3 & E3 & KS3 & L3 & N3 & Z3 & C3).
  exists G3, ts3, (w1 + w3)%N, T. split; [exact E3|]. split; [auto|]. split; [auto|]. split; [auto|]. split; [auto|].
  pose proof (v_n _ _ _ _ _ _ D) as N1. rewrite N1 in N3, C3. rewrite N3. fold n in C3 |- *. split.
  - intros f F. exists f. split; [auto|]. pose proof (v_le _ _ _ _ _ _ D f) as X. fold W in X. specialize (C3 f F). lia.
  - intros f F NQ. exists f. split; [auto|].
    unfold W. rewrite <- (v_cost _ _ _ _ _ _ D f), <- (C3 f F); [lia|]. intros t It Pt. unfold PP in Pt. rewrite andb_true_r in Pt. apply isterm_In in Pt. auto.
Qed.
End Child.

(** ** only blocks of live terminals matter *)
Lemma live_blocks G T f t0 : mvalid G -> separates (m_n G) T f -> In t0 (live G T) ->
  exists f2, separates (m_n G) T f2 /\ (cost G f2 <= cost G f)%N /\ (forall v, v < m_n G -> nth v (m_rows G) [] <> [] -> In (nth (f2 v) T 0%nat) (live G T)).
Proof.
  intros MV F H0. pose proof (separates_nodup _ _ _ F) as ND.
  assert (LI : forall t, In t (live G T) <-> In t T /\ nth t (m_rows G) [] <> []).
  { intro t. unfold live. rewrite filter_In, Nat.ltb_lt. destruct (nth t (m_rows G) []); cbn; intuition (try congruence; try lia). }
  pose proof (proj1 (LI t0) H0) as [T0 _].
  set (f2 := fun v => match nth v (m_rows G) [] with [] => f v | _ => if in_dec Nat.eq_dec (nth (f v) T 0) (live G T) then f v else idx t0 T end).
  exists f2. split; [|split].
  - apply separates_of; auto.
    + intros v Hv. unfold f2. destruct (nth v (m_rows G) []); [apply F; auto|]. destruct (in_dec _ _ _); [apply F; auto|apply idx_nth; auto].
    + intros t Ht. unfold f2. pose proof (separates_in _ _ _ F ND t Ht) as Q. destruct (nth t (m_rows G) []) eqn:E; [auto|].
      destruct (in_dec _ _ _) as [|X]; [auto|]. exfalso. apply X. rewrite Q, (proj1 (idx_nth t T Ht)). apply LI. split; [auto|]. rewrite E. discriminate.
  - apply mtcost_le. intros u v Hu Hv NW E.
    assert (Eu : nth u (m_rows G) [] <> []) by (intro Z; apply NW, row_nil_wt; [apply MV|auto]).
    assert (Ev : nth v (m_rows G) [] <> []) by (intro Z; apply NW, row_nil_wt; [apply MV|auto]).
    unfold f2. destruct (nth u (m_rows G) []); [congruence|]. destruct (nth v (m_rows G) []); [congruence|]. rewrite E. reflexivity.
  - intros v Hv Nv. unfold f2. destruct (nth v (m_rows G) []); [congruence|]. destruct (in_dec _ _ _); [auto|]. rewrite (proj1 (idx_nth t0 T T0)). auto.
Qed.

(** ** the terminals to branch on *)
Lemma first_edge_wt R p v : simple R -> match first_edge (nth p R []) v with Some w => In v (tgts (nth p R [])) /\ wt (adj R) p v = w | None => ~ In v (tgts (nth p R [])) end.
Proof.
  intro SI. specialize (SI p). unfold wt. rewrite adj_nth. revert SI. generalize (nth p R []). induction l as [|[[t w] r] l IH]; intro ND; [intros []|].
  cbn [first_edge tgts map] in *. apply NoDup_cons_iff in ND. destruct ND as [N ND]. cbn [fst snd] in *. destruct (Nat.eqb_spec t v) as [->|Nt].
  - split; [left; auto|]. cbn [filter map fst snd]. rewrite Nat.eqb_refl. cbn [sumN fst snd].
    rewrite sumN_filter, sumN_map. rewrite sumN_zero; [lia|]. intros h Hh. cbn [fst snd]. destruct (Nat.eqb_spec (fst (fst h)) v) as [E|]; [|reflexivity].
    exfalso. apply N. unfold tgts. apply in_map_iff. exists h. auto.
  - specialize (IH ND). cbn [filter map fst snd]. destruct (Nat.eqb_spec t v); [contradiction|]. destruct (first_edge l v); [|intros [Q|Q]; [cbn in Q; congruence|auto]].
    destruct IH as [A B]. split; [right; auto|auto].
Qed.

Lemma fold_max {A} (g : A -> N) l : forall m, fold_left (fun m x => N.max m (g x)) l m = N.max m (fold_left (fun m x => N.max m (g x)) l 0%N).
Proof. induction l as [|a l IH]; intro m; cbn [fold_left]; [lia|]. rewrite (IH (N.max m _)), (IH (N.max 0 _)). lia. Qed.
Lemma fold_max_ge {A} (g : A -> N) l x : In x l -> (g x <= fold_left (fun m x => N.max m (g x)) l 0)%N.
Proof. induction l as [|a l IH]; intros []; cbn [fold_left]; rewrite fold_max; [subst; lia|specialize (IH H); lia]. Qed.
Lemma fold_max_in {A} (g : A -> N) l : l <> [] -> exists x, In x l /\ g x = fold_left (fun m x => N.max m (g x)) l 0%N.
Proof.
  induction l as [|a l IH]; intro H; [contradiction|]. cbn [fold_left]. rewrite fold_max. destruct l as [|b l].
  - exists a. split; [left; auto|]. cbn. lia.
  - destruct IH as (x & I & E); [discriminate|]. rewrite <- E. destruct (N.le_gt_cases (g x) (g a)).
    + exists a. split; [left; auto|lia].
    + exists x. split; [right; auto|lia].
Qed.
Lemma fold_add {A} (g : A -> N) l : forall s, fold_left (fun s x => (s + g x)%N) l s = (s + sumN g l)%N.
Proof. induction l as [|a l IH]; intro s; cbn [fold_left sumN]; [lia|]. rewrite IH. lia. Qed.

Lemma at_positions_fun maps origs G' T1 T2 : at_positions G' maps origs T1 -> at_positions G' maps origs T2 -> T1 = T2.
Proof.
  intros [L1 P1] [L2 P2]. apply (nth_ext _ _ 0 0); [congruence|]. intros i Hi. rewrite L1 in Hi.
  destruct (nth_error origs i) as [o|] eqn:E; [|apply nth_error_None in E; lia].
  destruct (P1 i o E) as (o1 & M1 & E1). destruct (P2 i o E) as (o2 & M2 & E2). rewrite M1 in M2. injection M2 as <-. congruence.
Qed.

Section Branch.
Context (srt : list (option nat * N) -> list (option nat * N)) (SRT : forall l, Permutation (srt l) l).
Context (G : mg) (maps : list (list nat)) (origs T : list nat) (vtx : nat).
Context (KS : kstate G maps origs T) (SI : simple (m_rows G)) (HV : vtx < m_n G) (NV : ~ In vtx T).
Let n := m_n G.
Let W := wt (adj (m_rows G)).
Let ts := live G T.
Let nt := nbr_terms G ts vtx.
Context (AD : exists t, In t ts /\ In t (tgts (nth vtx (m_rows G) []))).

Lemma tgts_sym a b : In b (tgts (nth a (m_rows G) [])) <-> In a (tgts (nth b (m_rows G) [])).
Proof.
  enough (X : forall a b, In b (tgts (nth a (m_rows G) [])) -> In a (tgts (nth b (m_rows G) []))) by (split; apply X).
  clear a b. intros a b I. apply In_tgts in I. destruct I as [e I]. unfold tgt_of in I. destruct (slot (m_rows G) a e) as [[[t w] r]|] eqn:S; [|discriminate].
  cbn in I. injection I as ->. destruct (proj1 (ks_valid _ _ _ _ KS) a e b w r S) as (_ & _ & SR). apply In_tgts. exists r. unfold tgt_of, slot. rewrite SR. reflexivity.
Qed.

Lemma nt_in p w : In (p, w) nt <-> exists t, p = Some t /\ In t ts /\ In t (tgts (nth vtx (m_rows G) [])) /\ w = W vtx t.
Proof.
  unfold nt, nbr_terms. rewrite in_flat_map. split.
  - intros (t & Ht & I). pose proof (first_edge_wt (m_rows G) t vtx SI) as X. destruct (first_edge _ vtx) as [w'|]; [|destruct I]. destruct I as [E|[]]. injection E as <- <-.
    destruct X as [X1 X2]. exists t. split; [auto|]. split; [auto|]. split; [apply tgts_sym; auto|]. rewrite <- X2. apply (W_symm _ (proj1 (ks_valid _ _ _ _ KS))); auto.
    apply (ks_lt _ _ _ _ KS), (ts_in G T); auto.
  - intros (t & -> & Ht & Q & ->). exists t. split; [auto|]. pose proof (first_edge_wt (m_rows G) t vtx SI) as X. destruct (first_edge _ vtx) as [w'|]; [|exfalso; apply X, tgts_sym; auto].
    left. f_equal. rewrite <- (proj2 X). apply (W_symm _ (proj1 (ks_valid _ _ _ _ KS))); auto. apply (ks_lt _ _ _ _ KS), (ts_in G T); auto.
Qed.

Lemma nt_sum : sumN snd nt = sumN (W vtx) ts.
Proof.
  unfold nt, nbr_terms. assert (X : forall t, In t ts -> t < n) by (intros; apply (ks_lt _ _ _ _ KS), (ts_in G T); auto). revert X. generalize ts as l. induction l as [|t l IH]; intro X; [reflexivity|].
  cbn [flat_map]. rewrite sumN_app, IH by (intros; apply X; right; auto). cbn [sumN]. f_equal.
  pose proof (first_edge_wt (m_rows G) t vtx SI) as Y. destruct (first_edge _ vtx) as [w'|].
  - cbn [sumN snd]. rewrite N.add_0_r, <- (proj2 Y). apply (W_symm _ (proj1 (ks_valid _ _ _ _ KS))); auto. apply X. left. auto.
  - cbn [sumN]. symmetry. apply wt_tgts. rewrite tgts_sym. auto.
Qed.

Lemma nt_len t : In t ts -> ~ In t (tgts (nth vtx (m_rows G) [])) -> length nt < length ts.
Proof.
  unfold nt, nbr_terms.
  assert (LE : forall l, length (flat_map (fun p => match first_edge (nth p (m_rows G) []) vtx with Some w => [(Some p, w)] | None => [] end) l) <= length l).
  { induction l as [|a l IH]; [auto|]. cbn [flat_map length]. rewrite app_length. destruct (first_edge _ vtx); cbn [length]; lia. }
  generalize ts as l. induction l as [|a l IH]; intros I Q; [destruct I|]. cbn [flat_map length]. rewrite app_length. destruct I as [->|I].
  - pose proof (first_edge_wt (m_rows G) t vtx SI) as Y. destruct (first_edge _ vtx) as [w'|]; [exfalso; apply Q, tgts_sym, Y|]. cbn [length]. specialize (LE l). lia.
  - specialize (IH I Q). destruct (first_edge _ vtx); cbn [length]; lia.
Qed.

Let heavy := fold_left (fun m (x : option nat * N) => N.max m (snd x)) nt 0%N.
Let nonterm := (nth vtx (m_deg G) 0 - sumN (W vtx) ts)%N.

Lemma heavy_ok : exists h, In h ts /\ In h (tgts (nth vtx (m_rows G) [])) /\ W vtx h = heavy.
Proof.
  destruct (fold_max_in (snd : option nat * N -> N) nt) as ([p w] & I & E).
  - destruct AD as (t & A & B). intro Z. assert (X : In (Some t, W vtx t) nt) by (apply nt_in; exists t; auto). rewrite Z in X. destruct X.
  - apply nt_in in I. destruct I as (t & -> & A & B & ->). exists t. auto.
Qed.

Lemma bt_in x : In x (branch_terms srt G ts vtx) <->
  (exists t, x = Some t /\ In t ts /\ In t (tgts (nth vtx (m_rows G) [])) /\ ((heavy < nonterm + W vtx t)%N \/ W vtx t = heavy)) \/
  (x = None /\ length nt < length ts /\ (heavy < nonterm)%N).
Proof.
  assert (FS : fold_left (fun s (x : option nat * N) => s + snd x)%N nt 0%N = sumN (W vtx) ts) by (rewrite (fold_add snd), nt_sum; lia).
  unfold branch_terms. fold nt. fold heavy. rewrite FS. fold nonterm. rewrite in_map_iff.
  assert (B : forall w, ((heavy <? nonterm + w) || (heavy =? w))%N = true <-> (heavy < nonterm + w)%N \/ w = heavy).
  { intro w. rewrite orb_true_iff, N.ltb_lt, N.eqb_eq. intuition auto. }
  split.
  - intros ([p w] & <- & I). apply filter_In in I. destruct I as [I C]. cbn [fst snd] in *. apply B in C. apply (Permutation_in _ (SRT _)) in I.
    assert (X : In (p, w) nt -> exists t, p = Some t /\ In t ts /\ In t (tgts (nth vtx (m_rows G) [])) /\ ((heavy < nonterm + W vtx t)%N \/ W vtx t = heavy)).
    { intro J. apply nt_in in J. destruct J as (t & -> & J1 & J2 & ->). exists t. auto. }
    destruct ((length nt <? length ts) && (heavy <? nonterm)%N) eqn:Q; [|left; auto].
    apply in_app_or in I. destruct I as [I|[I|[]]]; [left; auto|]. right. injection I as <- <-. apply andb_prop in Q. destruct Q as [Q1 Q2].
    apply Nat.ltb_lt in Q1. apply N.ltb_lt in Q2. auto.
  - intros [(t & -> & H1 & H2 & H3)|(-> & H1 & H2)].
    + exists (Some t, W vtx t). split; [auto|]. apply filter_In. split; [|apply B; auto]. apply (Permutation_in _ (Permutation_sym (SRT _))).
      assert (X : In (Some t, W vtx t) nt) by (apply nt_in; exists t; auto). destruct (_ && _); [apply in_or_app; left; auto|auto].
    + exists (None, nonterm). split; [auto|]. apply filter_In. split; [|apply B; cbn [snd]; left; lia]. apply (Permutation_in _ (Permutation_sym (SRT _))).
      assert (Q1 : (length nt <? length ts) = true) by (apply Nat.ltb_lt; auto). assert (Q2 : (heavy <? nonterm)%N = true) by (apply N.ltb_lt; auto).
      rewrite Q1, Q2. apply in_or_app. right. left. reflexivity.
Qed.

Lemma deg_bsum : nth vtx (m_deg G) 0%N = bsum n (W vtx).
Proof.
  pose proof (ks_valid _ _ _ _ KS) as (V & D & _). unfold n, W, m_n. rewrite (row_weight _ V). destruct D as [_ D]. rewrite (D vtx HV). reflexivity.
Qed.

Lemma att_bound f p : separates n T f -> In p ts -> f vtx = f p -> (att n W f vtx (f vtx) <= nonterm + W vtx p)%N.
Proof.
  intros F Hp E. pose proof (ks_nd _ _ _ _ KS) as ND. assert (TI : forall t, In t ts -> In t T) by (intros t; apply (ts_in G T)).
  assert (NDS : NoDup ts) by (apply NoDup_filter; auto).
  assert (S1 : sumN (W vtx) ts = bsum n (fun u => if isterm ts u then W vtx u else 0%N)).
  { symmetry. apply set_sum; auto.
    intro u. rewrite isterm_In. split; [intro H; split; [apply (ks_lt _ _ _ _ KS); auto|auto]|tauto]. }
  assert (S2 : (att n W f vtx (f vtx) + sumN (W vtx) ts <= nth vtx (m_deg G) 0 + W vtx p)%N).
  { rewrite S1, deg_bsum. assert (Hpn : p < n) by (apply (ks_lt _ _ _ _ KS); auto). rewrite <- (bsum_single n (W vtx) p Hpn). unfold att. rewrite <- !bsum_add. apply bsum_le. intros u Hu.
    destruct (isterm ts u) eqn:Iu.
    - apply isterm_In in Iu. destruct (Nat.eqb_spec u p) as [->|Np]; [destruct (p =? vtx), (f p =? f vtx); lia|].
      destruct (u =? vtx); [lia|]. destruct (Nat.eqb_spec (f u) (f vtx)) as [Q|]; [|lia]. exfalso.
      apply (term_diff G maps origs T KS f u p F (TI u Iu) (TI p Hp) Np). congruence.
    - destruct (u =? vtx), (f u =? f vtx), (u =? p); lia. }
  unfold nonterm. lia.
Qed.

(** every solution is reached by one of the children, at no higher cost *)
Lemma branch_cover f : separates n T f -> exists x f', In x (branch_terms srt G ts vtx) /\ separates n T f' /\ (mtcost n W f' <= mtcost n W f)%N /\
  match x with Some t => f' vtx = f' t | None => forall t, In t ts -> In t (tgts (nth vtx (m_rows G) [])) -> f' vtx <> f' t end.
Proof.
  intro F. destruct AD as (t0 & I0 & A0). destruct (live_blocks G T f t0 (ks_valid _ _ _ _ KS) F I0) as (f2 & F2 & C2 & L2).
  assert (NE : nth vtx (m_rows G) [] <> []) by (intro Z; rewrite Z in A0; destruct A0). specialize (L2 vtx HV NE).
  pose proof (ks_nd _ _ _ _ KS) as ND. assert (TI : forall t, In t ts -> In t T) by (intros t; apply (ts_in G T)).
  set (p := nth (f2 vtx) T 0) in *. assert (E : f2 vtx = f2 p).
  { rewrite (separates_in _ _ _ F2 ND p (TI p L2)). unfold p. symmetry. apply nth_idx; auto. apply F2. auto. }
  destruct heavy_ok as (h & H1 & H2 & H3). pose proof (att_bound f2 p F2 L2 E) as AB.
  assert (HN : h < n) by (apply (ks_lt _ _ _ _ KS); auto). assert (HD : h <> vtx) by (intros ->; auto).
  assert (MV : (nonterm + W vtx p <= heavy)%N -> exists x f', In x (branch_terms srt G ts vtx) /\ separates n T f' /\ (mtcost n W f' <= mtcost n W f)%N /\
    match x with Some t => f' vtx = f' t | None => forall t, In t ts -> In t (tgts (nth vtx (m_rows G) [])) -> f' vtx <> f' t end).
  { intro LE. exists (Some h), (mv f2 vtx (f2 h)). split; [apply bt_in; left; exists h; auto|]. split; [apply mv_separates; auto; apply F2; auto|]. split; [|rewrite mv_eq, mv_neq; auto].
    eapply N.le_trans; [apply move_le; auto|exact C2]; [apply W_symm, (ks_valid _ _ _ _ KS)|].
    pose proof (att_ge n W f2 vtx (f2 h) h HN HD eq_refl). lia. }
  destruct (N.le_gt_cases (nonterm + W vtx p) heavy) as [LE|GT]; [auto|].
  destruct (in_dec Nat.eq_dec p (tgts (nth vtx (m_rows G) []))) as [AP|NP].
  - exists (Some p), f2. split; [apply bt_in; left; exists p; auto|]. auto.
  - exists None, f2. split; [apply bt_in; right; split; [auto|split; [apply (nt_len p); auto|]]|].
    + assert (Z : W vtx p = 0%N) by (apply wt_tgts; auto). rewrite Z in GT. lia.
    + split; [auto|]. split; [auto|]. intros t Ht At. rewrite E. apply (term_diff G maps origs T KS f2 p t F2); auto. intros ->. contradiction.
Qed.

(** ** the children *)
Definition pstate (C : mg * list (nat * nat) * N) (T' : list nat) : Prop :=
  let '(G', ts', _) := C in kstate G' maps origs T' /\ map fst ts' = live G' T' /\ length T' = length T /\ noterm (m_rows G') T'.

Lemma child_all x : In x (branch_terms srt G ts vtx) -> exists C T', branch_child maps origs G ts vtx x = Some C /\ pstate C T' /\
  (forall f', separates (m_n (fst (fst C))) T' f' -> exists f, separates n T f /\ (mtcost n W f <= cost (fst (fst C)) f' + snd C)%N) /\
  (forall f, separates n T f -> match x with Some t => f vtx = f t | None => forall t, In t ts -> In t (tgts (nth vtx (m_rows G) [])) -> f vtx <> f t end ->
     exists f', separates (m_n (fst (fst C))) T' f' /\ (cost (fst (fst C)) f' + snd C)%N = mtcost n W f).
Proof.
  intro I. apply bt_in in I. destruct I as [(t & -> & H1 & H2 & _)|(-> & _)].
  - destruct (child_some G maps origs T vtx KS SI HV NV t H1 H2) as (G' & ts' & w & T' & E & K & L & LN & Z & U & D).
    exists (G', ts', w), T'. split; [auto|]. split; [exact (conj K (conj L (conj LN Z)))|]. cbn [fst snd]. split; [|auto].
    intros f' F'. destruct (U f' F') as (f & F & Q). exists f. split; [auto|]. fold n W in Q |- *. lia.
  - destruct (child_none G maps origs T vtx KS HV) as (G' & ts' & w & T' & E & K & L & LN & Z & U & D).
    exists (G', ts', w), T'. split; [auto|]. split; [exact (conj K (conj L (conj LN Z)))|]. cbn [fst snd]. auto.
Qed.

Lemma collect_map {A B} (g : A -> option B) l : (forall x, In x l -> g x <> None) ->
  exists L, collect (map g l) = Some L /\ (forall y, In y L <-> exists x, In x l /\ g x = Some y) /\ length L = length l.
Proof.
  induction l as [|a l IH]; intro H; cbn [map collect]; [exists []; split; [auto|]; split; [|auto]; intro y; split; [intros []|intros (x & [] & _)]|].
  destruct (g a) as [b|] eqn:E; [|exfalso; apply (H a); [left; auto|auto]]. destruct IH as (L & -> & IL & LL); [intros x Hx; apply H; right; auto|].
  exists (b :: L). split; [auto|]. split; [|cbn; auto]. intro y. cbn [In]. rewrite IL. split.
  - intros [<-|(x & I & Q)]; [exists a; auto|exists x; auto].
  - intros (x & [<-|I] & Q); [left; congruence|right; exists x; auto].
Qed.

Theorem multi_branch_at_ok : exists L, multi_branch_at srt maps origs G ts vtx = Some L /\ L <> [] /\
  (forall C, In C L -> exists T', pstate C T') /\
  forall c, mtopt n W T c <->
    (exists C T' c', In C L /\ pstate C T' /\ mtopt (m_n (fst (fst C))) (wt (adj (m_rows (fst (fst C))))) T' c' /\ c = (c' + snd C)%N) /\
    (forall C T' c', In C L -> pstate C T' -> mtopt (m_n (fst (fst C))) (wt (adj (m_rows (fst (fst C))))) T' c' -> (c <= c' + snd C)%N).
Proof.
  unfold multi_branch_at. destruct (collect_map (branch_child maps origs G ts vtx) (branch_terms srt G ts vtx)) as (L & E & IL & LL).
  { intros x Hx. destruct (child_all x Hx) as (C & T' & Q & _). congruence. }
  exists L. split; [auto|].
  assert (PT : 0 < length T) by (destruct AD as (t & H & _); apply (ts_in G T) in H; destruct T; [destruct H|cbn; lia]).
  destruct (kstate_sep _ _ _ _ KS PT) as [fs FS].
  assert (CH : forall C T', In C L -> pstate C T' -> exists x, In x (branch_terms srt G ts vtx) /\ branch_child maps origs G ts vtx x = Some C /\
     (forall f', separates (m_n (fst (fst C))) T' f' -> exists f, separates n T f /\ (mtcost n W f <= cost (fst (fst C)) f' + snd C)%N) /\
     (forall f, separates n T f -> match x with Some t => f vtx = f t | None => forall t, In t ts -> In t (tgts (nth vtx (m_rows G) [])) -> f vtx <> f t end ->
       exists f', separates (m_n (fst (fst C))) T' f' /\ (cost (fst (fst C)) f' + snd C)%N = mtcost n W f)).
  { intros C T' I P. apply IL in I. destruct I as (x & Ix & Q). destruct (child_all x Ix) as (C1 & T1 & Q1 & P1 & R). rewrite Q in Q1. injection Q1 as <-.
    exists x. split; [auto|]. split; [auto|]. destruct C as [[G' ts'] w]. cbn [fst snd] in *. rewrite (at_positions_fun maps origs G' T' T1); [exact R|apply P|apply P1]. }
  assert (PS : forall C, In C L -> exists T', pstate C T').
  { intros C I. apply IL in I. destruct I as (x & Ix & Q). destruct (child_all x Ix) as (C1 & T1 & Q1 & P1 & _). exists T1. congruence. }
  assert (COV : forall f, separates n T f -> exists C T' f', In C L /\ pstate C T' /\ separates (m_n (fst (fst C))) T' f' /\ (cost (fst (fst C)) f' + snd C <= mtcost n W f)%N).
  { intros f F. destruct (branch_cover f F) as (x & f1 & Ix & F1 & C1 & M). destruct (child_all x Ix) as (C & T' & Q & P & _ & D). destruct (D f1 F1 M) as (f' & F' & CE).
    exists C, T', f'. split; [apply IL; exists x; auto|]. split; [auto|]. split; [auto|]. lia. }
  assert (CO : forall C T', In C L -> pstate C T' -> exists c', mtopt (m_n (fst (fst C))) (wt (adj (m_rows (fst (fst C))))) T' c').
  { intros C T' I P. destruct C as [[G' ts'] w]. cbn [fst]. destruct P as (K & _ & LT & _). apply opt_exists; [apply (ks_lt _ _ _ _ K)|]. eapply kstate_sep; [exact K|lia]. }
  assert (LB : forall c C T' c', mtopt n W T c -> In C L -> pstate C T' -> mtopt (m_n (fst (fst C))) (wt (adj (m_rows (fst (fst C))))) T' c' -> (c <= c' + snd C)%N).
  { intros c C T' c' [_ LO] I P [[f' [F' <-]] _]. destruct (CH C T' I P) as (x & _ & _ & U & _). destruct (U f' F') as (f & F & Q). specialize (LO f F). lia. }
  split; [|split; [auto|]].
  - destruct (COV fs FS) as (C & _ & _ & I & _). intros ->. destruct I.
  - intro c. split.
    + intro M. split; [|intros; eapply LB; eauto]. pose proof M as [[f [F EC]] LO]. destruct (COV f F) as (C & T' & f' & I & P & F' & CL).
      destruct (CO C T' I P) as [c' M']. exists C, T', c'. split; [auto|]. split; [auto|]. split; [auto|].
      pose proof (LB c C T' c' M I P M'). pose proof (proj2 M' f' F'). lia.
    + intros [(C & T' & c' & I & P & M' & ->) ALL]. destruct (opt_exists n W T (ks_lt _ _ _ _ KS) (ex_intro _ fs FS)) as [c0 M0].
      enough (c0 = c' + snd C)%N by congruence. pose proof (LB c0 C T' c' M0 I P M').
      pose proof M0 as [[f [F EC]] _]. destruct (COV f F) as (C2 & T2 & f2 & I2 & P2 & F2 & CL). destruct (CO C2 T2 I2 P2) as [c2 M2].
      pose proof (ALL C2 T2 c2 I2 P2 M2). pose proof (proj2 M2 f2 F2). lia.
Qed.
End Branch.
