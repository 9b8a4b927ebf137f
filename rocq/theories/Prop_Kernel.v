(* Prop_Kernel.v - properties C31-C34 and C38: the kernelization rules of the multiterminal cut solver. *)
From Coq Require Import Permutation.
From Verif Require Import SpecRel P_UnionFind P_Cut P_Mutable P_MutableIO P_Multi P_Kernel P_Kernel2 P_KernelC P_Kernel3 P_Kernel4 P_Kernel5 P_MultiCheck Prop_Mutable.

(** [kstate G maps origs T] (P_Kernel3.v): a valid graph with exact groups, no empty group, and the original
    terminals [origs] at the different positions [T].  [mtopt n W T c]: c is the optimal value (SpecMulti.v). *)
Notation wtm G := (wt (adj (m_rows G))).

(** a round of a rule keeps "deleted weight plus optimum" *)
Definition keeps_optimum (G : mg) (T : list nat) (G' : mg) (T' : list nat) (w : N) : Prop :=
  forall c, mtopt (m_n G) (wtm G) T c <-> exists c', mtopt (m_n G') (wtm G') T' c' /\ c = (c' + w)%N.

(** simple: no parallel edges *)
Definition simple_rows (G : mg) : Prop := forall v, NoDup (map (fun h : half => fst (fst h)) (nth v (m_rows G) [])).

(** ** C31: flowValue is the weight between the blocks, and it accepts exactly the solutions that put one
    terminal into every block *)
Theorem C31_flow_value : forall G origs sol w, mvalid G -> length sol = m_n G -> (forall t, In t origs -> t < m_n G) ->
  (flow_value G origs sol = Some w <->
   (forall v, v < m_n G -> nth v sol 0 < length origs) /\
   (forall i, i < length origs -> exists! j, j < length origs /\ nth (nth j origs 0) sol 0 = i) /\
   w = mtcost (m_n G) (wtm G) (fun v => nth v sol 0)).
Proof. intros G origs sol w MV LS LO. apply flow_value_ok; auto. Qed.
Print Assumptions C31_flow_value.

Definition kx_ops : list mop := [NewOrder 0 1 3; NewOrder 1 2 4; NewOrder 2 3 5; NewOrder 3 4 6; NewOrder 4 0 7; NewOrder 1 3 2; NewOrder 1 4 1].
Definition kx : mg := mg_of 5 kx_ops.
Lemma kx_valid : mvalid kx. Proof. exact (proj1 (mg_of_valid 5 kx_ops eq_refl)). Qed.
Example c31_run : flow_value kx [0; 2] [0; 0; 1; 1; 0] = Some 12%N /\ flow_value kx [0; 2] [0; 0; 0; 1; 0] = None.
Proof. split; reflexivity. Qed.

(** the state of a concrete instance *)
Fixpoint nodupb (l : list nat) : bool := match l with [] => true | x :: l' => negb (existsb (Nat.eqb x) l') && nodupb l' end.
Lemma nodupb_ok l : nodupb l = true -> NoDup l.
Proof.
  induction l as [|x l IH]; intro H; [constructor|]. cbn in H. apply andb_prop in H. destruct H as [A B]. constructor; [|auto]. intro I.
  apply Bool.negb_true_iff in A. rewrite (proj2 (isterm_In l x) I : existsb (Nat.eqb x) l = true) in A. discriminate.
Qed.
Definition kstate_b (G : mg) (T : list nat) : bool :=
  (length (m_part G) =? m_n G) && (length (m_cut G) =? m_n G) && forallb (fun p => negb (length (nth p (m_cont G) []) =? 0)) (seq 0 (m_n G)) &&
  forallb (fun t => (t <? m_n G) && match nth_error (m_pos G) t with Some p => p =? t | None => false end) T && nodupb T.
Lemma kstate_of G T : mvalid G -> groups_exact (m_n G) (m_cont G) (m_pos G) -> kstate_b G T = true -> kstate G [] T T.
Proof.
  intros V GE H. unfold kstate_b in H. do 4 (apply andb_prop in H; destruct H as [H ?]).
  apply Nat.eqb_eq in H. apply Nat.eqb_eq in H3. rewrite forallb_forall in H2, H1.
  constructor; auto.
  - intros p Hp E. specialize (H2 p ltac:(apply in_seq; lia)). rewrite E in H2. discriminate.
  - split; [auto|]. intros i o Ho. exists o. split; [reflexivity|]. pose proof (H1 o (nth_error_In _ _ Ho)) as X. apply andb_prop in X. destruct X as [_ X].
    rewrite (nth_error_nth _ _ 0 Ho). destruct (nth_error (m_pos G) o) as [p|]; [|discriminate]. apply Nat.eqb_eq in X. congruence.
  - intros t Ht. specialize (H1 t Ht). apply andb_prop in H1. apply Nat.ltb_lt. tauto.
  - apply nodupb_ok. auto.
Qed.

(** ** C38: deleteTermEdges *)
Theorem C38_delete_term_edges : forall G ts, mvalid G -> NoDup ts -> (forall t, In t ts -> t < m_n G) ->
  exists G' w, del_term_edges G ts = Some (G', w) /\
    valid_rows (m_rows G') /\ degrees_exact (m_rows G') (m_deg G') /\ count_exact (m_rows G') (m_ne G') /\ m_n G' = m_n G /\ m_pos G' = m_pos G /\
    (* no edge between two terminals is left, and all other weights are as before *)
    (forall s h, In s ts -> In h (nth s (m_rows G') []) -> ~ In (fst (fst h)) ts) /\
    (forall a b, a < m_n G -> b < m_n G -> ~ (In a ts /\ In b ts) -> wtm G' a b = wtm G a b) /\
    (* the weight of every separating assignment drops by exactly the reported weight *)
    (forall f, separates (m_n G) ts f -> mtcost (m_n G) (wtm G) f = (mtcost (m_n G) (wtm G') f + w)%N) /\
    keeps_optimum G ts G' ts w.
Proof.
  intros G ts MV ND HT. destruct (del_term_edges_ok G ts MV HT) as (G' & w & E & D & Z). exists G', w.
  pose proof (d_valid _ _ _ _ _ D) as (V1 & V2 & V3). do 4 (split; [auto|]). split; [apply (d_n _ _ _ _ _ D)|]. split; [apply (d_pos _ _ _ _ _ D)|].
  assert (C : forall f, separates (m_n G) ts f -> (mtcost (m_n G) (wtm G') f + w = mtcost (m_n G) (wtm G) f)%N).
  { intros f F. apply (d_cost _ _ _ _ _ D). intros s t Hs Ht N. rewrite (separates_in _ _ _ F ND s Hs), (separates_in _ _ _ F ND t Ht). intro Q.
    apply N. rewrite <- (proj1 (idx_nth s ts Hs)), <- (proj1 (idx_nth t ts Ht)), Q. reflexivity. }
  split; [|split; [apply (d_keep _ _ _ _ _ D)|split]].
  - intros s h Hs Hh I. apply In_nth_error in Hh. destruct Hh as [b Hb]. apply (Z s _ Hs I b). unfold P_Mutable4.tgt_of, slot. rewrite Hb. reflexivity.
  - intros f F. rewrite C by auto. reflexivity.
  - unfold keeps_optimum. rewrite (d_n _ _ _ _ _ D). apply mtopt_shift. auto.
Qed.
Print Assumptions C38_delete_term_edges.

(* three terminals in a triangle with parallel edges *)
Definition tt_ops : list mop := [NewOrder 0 1 3; NewOrder 1 2 4; NewOrder 2 0 5; NewOrder 0 1 6; NewOrder 3 0 7; NewOrder 3 1 2; NewOrder 3 2 1; NewOrder 1 0 8].
Definition ttg : mg := mg_of 4 tt_ops.
Example c38_hyps : mvalid ttg /\ NoDup [2; 0; 1] /\ forall t, In t [2; 0; 1] -> t < m_n ttg.
Proof.
  split; [exact (proj1 (mg_of_valid 4 tt_ops eq_refl))|]. split; [repeat constructor; cbn; intuition discriminate|].
  intros t [<-|[<-|[<-|[]]]]; vm_compute; lia.
Qed.
Example c38_run : option_map (fun r => (show (fst r), N.to_nat (snd r))) (del_term_edges ttg [2; 0; 1]) =
  Some ([[(3, 7, 0)]; [(3, 2, 1)]; [(3, 1, 2)]; [(0, 7, 0); (1, 2, 0); (2, 1, 0)]], [7; 2; 1; 10], 6, 26).
Proof. reflexivity. Qed.

(** ** C32: highDegreeContraction, for every set of active vertices, every order of the hash sets and every
    simple graph *)
Theorem C32_high_degree_partial : forall G maps origs T active ord, (forall l, Permutation (ord l) l) -> kstate G maps origs T -> 0 < length T ->
  simple_rows G ->
  exists G' ts' w T', rule_step (fun G ts => high_degree G ts active) ord maps origs G = Some (G', ts', w) /\ kstate G' maps origs T' /\
    map fst ts' = filter (fun v => 0 <? length (nth v (m_rows G') [])) T' /\ keeps_optimum G T G' T' w.
Proof.
  intros G maps origs T active ord OP KS PT SI. destruct (rule_step_ok (fun G ts => high_degree G ts active) ord G maps origs T OP KS) as (G' & ts' & w & T' & A); auto.
  - destruct (high_degree_ok G (live G T) active (ks_valid _ _ _ _ KS)) as (u & ps & E & I & S & EO); auto.
    + intros t Ht. apply filter_In in Ht. apply (ks_lt _ _ _ _ KS). tauto.
    + exists u, ps. auto.
  - exists G', ts', w, T'. exact A.
Qed.
Print Assumptions C32_high_degree_partial.

(* a vertex with a dominating edge, a vertex with a dominating terminal *)
Definition hd_ops : list mop := [NewOrder 0 3 9; NewOrder 1 3 2; NewOrder 3 4 3; NewOrder 4 2 4; NewOrder 5 4 8; NewOrder 5 1 3; NewOrder 5 2 2; NewOrder 3 5 2].
Definition hdg : mg := mg_of 6 hd_ops.
Lemma hdg_state : kstate hdg [] [0; 1; 2] [0; 1; 2].
Proof. destruct (mg_of_valid 6 hd_ops eq_refl) as [A [B C]]. apply kstate_of; [exact A|exact C|reflexivity]. Qed.
Example c32_hyps : kstate hdg [] [0; 1; 2] [0; 1; 2] /\ 0 < length [0; 1; 2] /\ simple_rows hdg.
Proof.
  split; [apply hdg_state|]. split; [cbn; lia|]. intro v. do 6 (destruct v as [|v]; [vm_compute; repeat constructor; cbn; intuition discriminate|]).
  rewrite (nth_overflow (m_rows hdg)) by (vm_compute; lia). constructor.
Qed.
Example c32_run : option_map (fun r => (show (fst (fst r)), snd (fst r), N.to_nat (snd r)))
    (rule_step (fun G ts => high_degree G ts (fun _ => true)) (fun l => l) [] [0; 1; 2] hdg) =
  Some ([[(3, 5, 2)]; [(3, 3, 0)]; [(3, 6, 1)]; [(1, 3, 0); (2, 6, 0); (0, 5, 0)]], [5; 3; 6; 14], 6, [(0, 0); (1, 1); (2, 2)], 2).
Proof. reflexivity. Qed.

(** with parallel edges the rule is wrong: it only counts one of the edges to the second terminal *)
Definition par_ops : list mop := [NewEdge 0 1 5; NewEdge 0 2 3; NewEdge 0 2 3].
Theorem C32_parallel_edges_refuted : exists G T G' ts' w T', kstate G [] T T /\
  rule_step (fun G ts => high_degree G ts (fun _ => true)) (fun l => l) [] T G = Some (G', ts', w) /\ at_positions G' [] T T' /\
  mtopt (m_n G) (wtm G) T 5 /\ mtopt (m_n G') (wtm G') T' 0 /\ w = 6%N /\ ~ keeps_optimum G T G' T' w.
Proof.
  destruct (rule_step (fun G ts => high_degree G ts (fun _ => true)) (fun l => l) [] [1; 2] (mg_of 3 par_ops)) as [[[G' ts'] w]|] eqn:E; [|vm_compute in E; discriminate].
  exists (mg_of 3 par_ops), [1; 2], G', ts', w, [0; 1]. destruct (mg_of_valid 3 par_ops eq_refl) as [A [B C]].
  split; [apply kstate_of; [exact A|exact C|reflexivity]|]. split; [exact E|].
  vm_compute in E. injection E as <- <- <-.
  assert (M1 : mtopt (m_n (mg_of 3 par_ops)) (wtm (mg_of 3 par_ops)) [1; 2] 5) by (apply (opt_check_ok _ _ _ _ [1; 0; 1]); reflexivity).
  match goal with |- _ /\ _ /\ mtopt ?n ?W ?T _ /\ _ => assert (M2 : mtopt n W T 0) by (apply (opt_check_ok _ _ _ _ [0; 1]); reflexivity) end.
  split. { split; [reflexivity|]. intros [|[|i]] o Ho; [injection Ho as <-; eexists; split; reflexivity..|destruct i; discriminate Ho]. }
  do 3 (split; [auto; reflexivity|]). intro K. apply (K 5%N) in M1. destruct M1 as (c' & M & Q). pose proof (mtopt_unique _ _ _ _ _ M M2). lia.
Qed.
Print Assumptions C32_parallel_edges_refuted.

(** ** C33: lowDegreeContraction keeps the optimum if no leaf hangs at a terminal of degree three *)
Theorem C33_low_degree_partial : forall G maps origs T ord, (forall l, Permutation (ord l) l) -> kstate G maps origs T -> 0 < length T ->
  (forall v t w r, nth v (m_rows G) [] = [(t, w, r)] -> ~ In v T -> length (nth t (m_rows G) []) = 3 -> ~ In t T) ->
  exists G' ts' w T', rule_step low_degree ord maps origs G = Some (G', ts', w) /\ kstate G' maps origs T' /\
    map fst ts' = filter (fun v => 0 <? length (nth v (m_rows G') [])) T' /\ keeps_optimum G T G' T' w.
Proof.
  intros G maps origs T ord OP KS PT GU. destruct (rule_step_ok low_degree ord G maps origs T OP KS) as (G' & ts' & w & T' & A); auto.
  - destruct (low_degree_ok G (live G T) (ks_valid _ _ _ _ KS)) as (u & ps & E & I & S & EO).
    + intros v t w r Ev Nv L3 It. apply filter_In in It. destruct It as [It _]. apply (GU v t w r Ev); auto. intro Iv. apply Nv, filter_In. split; [auto|].
      rewrite Ev. reflexivity.
    + exists u, ps. auto.
  - exists G', ts', w, T'. exact A.
Qed.
Print Assumptions C33_low_degree_partial.

(* a path, a leaf at a vertex of degree three, and a triangle *)
Definition ld_ops : list mop := [NewOrder 0 3 4; NewOrder 3 4 3; NewOrder 4 5 9; NewOrder 4 1 5; NewOrder 1 6 2; NewOrder 6 2 7; NewOrder 2 7 1; NewOrder 7 1 1; NewOrder 7 0 6; NewOrder 2 0 1].
Definition ldg : mg := mg_of 8 ld_ops.
Example c33_hyps : kstate ldg [] [0; 1; 2] [0; 1; 2] /\ 0 < length [0; 1; 2] /\
  (forall v t w r, nth v (m_rows ldg) [] = [(t, w, r)] -> ~ In v [0; 1; 2] -> length (nth t (m_rows ldg) []) = 3 -> ~ In t [0; 1; 2]).
Proof.
  destruct (mg_of_valid 8 ld_ops eq_refl) as [A [B C]]. split; [apply kstate_of; [exact A|exact C|reflexivity]|]. split; [cbn; lia|].
  intros v t w r H. do 8 (destruct v as [|v]; [vm_compute in H; try discriminate H; injection H as <- <- <-; intros _ _; cbn; intuition discriminate|]).
  rewrite (nth_overflow (m_rows ldg)) in H by (vm_compute; lia). discriminate H.
Qed.
Example c33_run : option_map (fun r => (show (fst (fst r)), snd (fst r), N.to_nat (snd r))) (rule_step low_degree (fun l => l) [] [0; 1; 2] ldg) =
  Some ([[(3, 6, 2)]; [(3, 1, 1)]; [(3, 1, 0)]; [(2, 1, 0); (1, 1, 0); (0, 6, 0)]], [6; 1; 1; 8], 6, [(0, 0); (1, 1); (2, 2)], 6).
Proof. reflexivity. Qed.

(** without that guard it is false: a leaf at a terminal of degree three makes the rule merge the terminal
    with its heaviest neighbour *)
Definition lt_ops : list mop := [NewOrder 0 1 1; NewOrder 0 2 1; NewOrder 0 3 1; NewOrder 2 3 1; NewOrder 2 4 10; NewOrder 3 5 10].
Theorem C33_low_degree_refuted : exists G T G' ts' w T', kstate G [] T T /\
  rule_step low_degree (fun l => l) [] T G = Some (G', ts', w) /\ at_positions G' [] T T' /\
  mtopt (m_n G) (wtm G) T 3 /\ mtopt (m_n G') (wtm G') T' 2 /\ w = 10%N /\ ~ keeps_optimum G T G' T' w.
Proof.
  destruct (rule_step low_degree (fun l => l) [] [0; 4; 5] (mg_of 6 lt_ops)) as [[[G' ts'] w]|] eqn:E; [|vm_compute in E; discriminate].
  exists (mg_of 6 lt_ops), [0; 4; 5], G', ts', w, [0; 1; 2]. destruct (mg_of_valid 6 lt_ops eq_refl) as [A [B C]].
  split; [apply kstate_of; [exact A|exact C|reflexivity]|]. split; [exact E|].
  vm_compute in E. injection E as <- <- <-.
  assert (M1 : mtopt (m_n (mg_of 6 lt_ops)) (wtm (mg_of 6 lt_ops)) [0; 4; 5] 3) by (apply (opt_check_ok _ _ _ _ [0; 0; 1; 2; 1; 2]); reflexivity).
  match goal with |- _ /\ _ /\ mtopt ?n ?W ?T _ /\ _ => assert (M2 : mtopt n W T 2) by (apply (opt_check_ok _ _ _ _ [0; 1; 2; 2]); reflexivity) end.
  split. { split; [reflexivity|]. intros [|[|[|i]]] o Ho; [injection Ho as <-; eexists; split; reflexivity..|destruct i; discriminate Ho]. }
  do 3 (split; [auto; reflexivity|]). intro K. apply (K 3%N) in M1. destruct M1 as (c' & M & Q). pose proof (mtopt_unique _ _ _ _ _ M M2). lia.
Qed.
Print Assumptions C33_low_degree_refuted.

(** ** C34: triangleDetection.  It is safe for two terminals if a single pair is merged; the full statement (any
    number of terminals and merged pairs) is false in both respects. *)
Theorem C34_triangle_partial : forall G maps origs T active ord, (forall l, Permutation (ord l) l) -> kstate G maps origs T ->
  (* both terminals still have edges, and one pair is merged *)
  length (filter (fun v => 0 <? length (nth v (m_rows G) [])) T) = 2 ->
  (forall u, triangles G (filter (fun v => 0 <? length (nth v (m_rows G) [])) T) active = Some u -> m_n G <= S (cnt u)) ->
  exists G' ts' w T', rule_step (fun G ts => triangles G ts active) ord maps origs G = Some (G', ts', w) /\ kstate G' maps origs T' /\
    map fst ts' = filter (fun v => 0 <? length (nth v (m_rows G') [])) T' /\ keeps_optimum G T G' T' w.
Proof.
  intros G maps origs T active ord OP KS L2 ONE. destruct (rule_step_ok (fun G ts => triangles G ts active) ord G maps origs T OP KS) as (G' & ts' & w & T' & A); auto.
  - destruct (triangles_ok G (live G T) active (ks_valid _ _ _ _ KS)) as (u & ps & E & I & TP).
    destruct (triangles_one_pair G (live G T) (ks_valid _ _ _ _ KS) L2 u ps I TP (ONE u E)) as [S EO]. exists u, ps. auto.
  - destruct T; [discriminate L2|cbn; lia].
  - exists G', ts', w, T'. exact A.
Qed.
Print Assumptions C34_triangle_partial.

(** every pair it unites is a pair of corners of a triangle that both have at least half of their weight in it *)
Theorem C34_pairs_from_heavy_triangles : forall G ts active, mvalid G -> exists u ps, triangles G ts active = Some u /\
  (forall x y, x < m_n G -> y < m_n G -> ((exists r, Root (parent u) x r /\ Root (parent u) y r) <-> conn ps x y)) /\
  (forall a b, In (a, b) ps -> exists c, c <> a /\ c <> b /\ a <> b /\ ~ In a ts /\ ~ In b ts /\
     (bsum (m_n G) (wtm G a) <= 2 * (wtm G a b + wtm G a c))%N /\ (bsum (m_n G) (wtm G b) <= 2 * (wtm G b a + wtm G b c))%N).
Proof.
  intros G ts active MV. destruct (triangles_ok G ts active MV) as (u & ps & E & I & T). exists u, ps. split; [auto|]. split; [intros x y Hx Hy; symmetry; apply (inv_conn _ _ _ I); auto|].
  intros a b Q. destruct (T a b Q) as (c & Ha & Hb & Hc & Nab & Nac & Nbc & Ta & Tb & _ & _ & Da & Db). exists c.
  rewrite !(row_weight (m_rows G) (proj1 MV) : forall x, bsum (m_n G) _ = _). rewrite (W_symm _ (proj1 MV) b a) by auto. repeat split; auto.
Qed.
Print Assumptions C34_pairs_from_heavy_triangles.

Definition th_ops : list mop := [NewOrder 0 1 4; NewOrder 1 2 3; NewOrder 0 2 3; NewOrder 0 3 5; NewOrder 1 4 6; NewOrder 2 3 9; NewOrder 2 4 9].
Definition thg : mg := mg_of 5 th_ops.
Example c34_hyps : kstate thg [] [3; 4] [3; 4] /\ length (filter (fun v => 0 <? length (nth v (m_rows thg) [])) [3; 4]) = 2 /\
  (forall u, triangles thg (filter (fun v => 0 <? length (nth v (m_rows thg) [])) [3; 4]) (fun _ => true) = Some u -> m_n thg <= S (cnt u)).
Proof.
  destruct (mg_of_valid 5 th_ops eq_refl) as [A [B C]]. split; [apply kstate_of; [exact A|exact C|reflexivity]|]. split; [reflexivity|].
  intros u H. vm_compute in H. injection H as <-. vm_compute. lia.
Qed.
Example c34_run : option_map (fun r => (show (fst (fst r)), snd (fst r), N.to_nat (snd r)))
    (rule_step (fun G ts => triangles G ts (fun _ => true)) (fun l => l) [] [3; 4] thg) =
  Some ([[(2, 6, 1); (3, 5, 0); (1, 6, 0)]; [(0, 6, 2); (2, 9, 0)]; [(1, 9, 1); (0, 6, 0); (3, 9, 1)]; [(0, 5, 1); (2, 9, 2)]],
        [17; 15; 24; 14], 10, [(3, 0); (1, 1)], 0).
Proof. reflexivity. Qed.

(** three terminals, one pair *)
Definition tri_ops : list mop := [NewOrder 0 1 1; NewOrder 1 2 1; NewOrder 0 2 1; NewOrder 0 3 2; NewOrder 1 4 2; NewOrder 2 5 100].
Theorem C34_triangle_refuted : exists G T G' ts' w T', kstate G [] T T /\ length T = 3 /\
  rule_step (fun G ts => triangles G ts (fun _ => true)) (fun l => l) [] T G = Some (G', ts', w) /\ m_n G' = m_n G - 1 /\ at_positions G' [] T T' /\
  mtopt (m_n G) (wtm G) T 3 /\ mtopt (m_n G') (wtm G') T' 4 /\ w = 0%N /\ ~ keeps_optimum G T G' T' w.
Proof.
  destruct (rule_step (fun G ts => triangles G ts (fun _ => true)) (fun l => l) [] [3; 4; 5] (mg_of 6 tri_ops)) as [[[G' ts'] w]|] eqn:E; [|vm_compute in E; discriminate].
  exists (mg_of 6 tri_ops), [3; 4; 5], G', ts', w, [3; 4; 1]. destruct (mg_of_valid 6 tri_ops eq_refl) as [A [B C]].
  split; [apply kstate_of; [exact A|exact C|reflexivity]|]. split; [reflexivity|]. split; [exact E|].
  vm_compute in E. injection E as <- <- <-.
  assert (M1 : mtopt (m_n (mg_of 6 tri_ops)) (wtm (mg_of 6 tri_ops)) [3; 4; 5] 3) by (apply (opt_check_ok _ _ _ _ [0; 1; 2; 0; 1; 2]); reflexivity).
  match goal with |- _ /\ _ /\ _ /\ mtopt ?n ?W ?T _ /\ _ => assert (M2 : mtopt n W T 4) by (apply (opt_check_ok _ _ _ _ [0; 2; 2; 0; 1]); reflexivity) end.
  split; [reflexivity|]. split. { split; [reflexivity|]. intros [|[|[|i]]] o Ho; [injection Ho as <-; eexists; split; reflexivity..|destruct i; discriminate Ho]. }
  do 3 (split; [auto; reflexivity|]). intro K. apply (K 3%N) in M1. destruct M1 as (c' & M & Q). pose proof (mtopt_unique _ _ _ _ _ M M2). lia.
Qed.
Print Assumptions C34_triangle_refuted.

(** two terminals, two triangles with a common corner *)
Definition bow_ops : list mop := [NewOrder 0 1 1; NewOrder 0 2 1; NewOrder 1 2 1; NewOrder 0 3 1; NewOrder 0 4 1; NewOrder 3 4 1;
  NewOrder 1 6 2; NewOrder 3 5 2; NewOrder 2 6 9; NewOrder 4 5 9].
Theorem C34_two_triangles_refuted : exists G T G' ts' w T', kstate G [] T T /\ length T = 2 /\
  rule_step (fun G ts => triangles G ts (fun _ => true)) (fun l => l) [] T G = Some (G', ts', w) /\ at_positions G' [] T T' /\
  mtopt (m_n G) (wtm G) T 2 /\ mtopt (m_n G') (wtm G') T' 4 /\ w = 0%N /\ ~ keeps_optimum G T G' T' w.
Proof.
  destruct (rule_step (fun G ts => triangles G ts (fun _ => true)) (fun l => l) [] [5; 6] (mg_of 7 bow_ops)) as [[[G' ts'] w]|] eqn:E; [|vm_compute in E; discriminate].
  exists (mg_of 7 bow_ops), [5; 6], G', ts', w, [1; 3]. destruct (mg_of_valid 7 bow_ops eq_refl) as [A [B C]].
  split; [apply kstate_of; [exact A|exact C|reflexivity]|]. split; [reflexivity|]. split; [exact E|].
  vm_compute in E. injection E as <- <- <-.
  assert (M1 : mtopt (m_n (mg_of 7 bow_ops)) (wtm (mg_of 7 bow_ops)) [5; 6] 2) by (apply (opt_check_ok _ _ _ _ [0; 1; 1; 0; 0; 0; 1]); reflexivity).
  match goal with |- _ /\ _ /\ mtopt ?n ?W ?T _ /\ _ => assert (M2 : mtopt n W T 4) by (apply (opt_check_ok _ _ _ _ [0; 0; 1; 1; 0]); reflexivity) end.
  split. { split; [reflexivity|]. intros [|[|i]] o Ho; [injection Ho as <-; eexists; split; reflexivity..|destruct i; discriminate Ho]. }
  do 3 (split; [auto; reflexivity|]). intro K. apply (K 2%N) in M1. destruct M1 as (c' & M & Q). pose proof (mtopt_unique _ _ _ _ _ M M2). lia.
Qed.
Print Assumptions C34_two_triangles_refuted.
