(* Prop_GraphAlg.v - properties C54 (the validity checks), C55 (vertices of largest degree), C56 (centralFlowEdge). *)
From Coq Require Import Permutation Sorted.
From Verif Require Import M_GraphAlg P_GraphAlg P_Mutable Prop_Mutable SpecHop SpecBuild P_Graph P_Degree Prop_Graph.

(** ** C54: the check of a mutable graph prints "Graph is valid!" exactly for the graphs with matching reverse
    edges, no loops or parallel edges, exact degrees and edge count, and consistent contained vertices *)
Theorem C54_check_mutable : forall G, check_mutable G = Some true <->
  valid_rows (m_rows G) /\ (forall v, NoDup (map (fun h : half => fst (fst h)) (nth v (m_rows G) []))) /\
  (forall v, v < m_n G -> nth_error (m_deg G) v = Some (sumN (fun h : half => snd (fst h)) (nth v (m_rows G) []))) /\
  count_exact (m_rows G) (m_ne G) /\
  (forall v, v < m_n G -> exists xs, nth_error (m_cont G) v = Some xs /\ forall x, In x xs -> nth_error (m_pos G) x = Some v).
Proof.
  intro G. rewrite check_mutable_ok. split.
  - intros [F C]. split; [|split; [|split; [|split; [exact C|]]]].
    + intros v e t w r H. destruct (Nat.lt_ge_cases v (m_n G)) as [L|L]; [apply (proj1 (proj2 (F v L)) e t w r H)|]. rewrite nth_overflow in H by exact L. destruct e; discriminate H.
    + intro v. destruct (Nat.lt_ge_cases v (m_n G)) as [L|L]; [apply (F v L)|]. rewrite nth_overflow by exact L. constructor.
    + intros v L. apply (F v L).
    + intros v L. apply (F v L).
  - intros (A & B & D & C & X). split; [|exact C]. intros v L. split; [apply X; exact L|]. split; [|split; [apply B|apply D; exact L]].
    intros i t w r H. apply (A v i t w r H).
Qed.
Print Assumptions C54_check_mutable.

(** the check accepts every simple graph reached by the operations, without an access out of range *)
Theorem C54_accepts : forall G, mvalid G -> groups_exact (m_n G) (m_cont G) (m_pos G) ->
  (forall v, NoDup (map (fun h : half => fst (fst h)) (nth v (m_rows G) []))) -> check_mutable G = Some true.
Proof.
  intros G (V & [LD D] & C) [LC GE] S. apply C54_check_mutable. split; [exact V|]. split; [exact S|]. split; [|split; [exact C|]].
  - intros v L. rewrite (nth_error_nth' _ 0%N) by (rewrite LD; exact L). f_equal. apply D. exact L.
  - intros v L. exists (nth v (m_cont G) []). split; [apply nth_error_nth'; lia|]. intros x Hx. apply (GE v x L) in Hx as [Hx E]. rewrite (nth_error_nth' _ 0) by exact Hx. f_equal. exact E.
Qed.
Print Assumptions C54_accepts.

Lemma NoDup_app_iff {A} (a b : list A) : NoDup (a ++ b) <-> NoDup a /\ NoDup b /\ forall x, In x a -> ~ In x b.
Proof.
  induction a as [|x a IH]; cbn [app]; [split; [intro H; repeat split; [constructor|auto|intros x []]|intros (_ & H & _); auto]|].
  rewrite !NoDup_cons_iff, IH, in_app_iff. split.
  - intros (H1 & H2 & H3 & H4). repeat split; auto. intros y [<-|Hy]; auto.
  - intros ((H1 & H2) & H3 & H4). repeat split; auto; [|intros y Hy; apply H4; right; auto]. intros [H|H]; [auto|]. apply (H4 x); [left; auto|auto].
Qed.
Lemma NoDup_rows (f : nat -> list (nat * N)) vs : NoDup vs ->
  (NoDup (map ends (flat_map (fun v => map (fun e => (v, fst e, snd e)) (f v)) vs)) <-> forall v, In v vs -> NoDup (map fst (f v))).
Proof.
  induction vs as [|v vs IH]; intro ND; cbn [flat_map map]; [split; [intros _ v []|constructor]|]. inversion ND as [|? ? N1 N2]; subst.
  rewrite map_app, NoDup_app_iff, (IH N2), map_map. cbn [ends fst].
  assert (X : NoDup (map (fun x : nat * N => (v, fst x)) (f v)) <-> NoDup (map fst (f v))).
  { rewrite <- (map_map fst (fun t => (v, t))). split; [apply NoDup_map_inv|]. intro H. apply FinFun.Injective_map_NoDup; [intros a b E; congruence|exact H]. }
  split.
  - intros (A & B & _) u [<-|Hu]; [apply X; exact A|auto].
  - intro H. split; [apply X, H; left; auto|]. split; [intros u Hu; apply H; right; auto|]. intros [a b] H1 H2. apply in_map_iff in H1 as (e & E & _). injection E as <- <-.
    apply in_map_iff in H2 as ([[c d] w] & E & H2). cbn [ends fst] in E. injection E as -> ->. apply in_flat_map in H2 as (u & Hu & H2). apply in_map_iff in H2 as (e' & E & _). injection E as -> _ _. auto.
Qed.

Lemma all_edges_len n es g : gfin n es g -> StronglySorted le (map fst es) -> length (all_edges g) = M_Graph.num_edges g.
Proof.
  intros F S. unfold all_edges, M_Graph.num_edges. rewrite (gfin_n _ _ _ F). rewrite (gf_edges _ _ _ F), map_length.
  assert (G : forall k, k <= n -> length (flat_map (fun v => map (fun e => (v, fst e, snd e)) (M_Graph.edges_of g v)) (seq 0 k)) = length (filter (fun e => fst e <? k) es)).
  { induction k as [|k IH]; intro L.
    - cbn [seq flat_map length]. rewrite (proj2 (length_zero_iff_nil _)); [reflexivity|]. clear. induction es as [|e es IH]; [reflexivity|]. cbn [filter]. destruct (Nat.ltb_spec (fst e) 0); [lia|auto].
    - rewrite seq_S, flat_map_app, app_length, IH by lia. cbn [plus flat_map]. rewrite app_nil_r, map_length, (edges_of_ok n es g k F S) by lia. rewrite map_length.
      clear. induction es as [|e es IH]; [reflexivity|]. cbn [filter]. destruct (Nat.ltb_spec (fst e) k), (Nat.eqb_spec (fst e) k), (Nat.ltb_spec (fst e) (S k)); cbn [length]; lia. }
  rewrite G by lia. f_equal. assert (A : forall e, In e es -> fst e < n) by apply (gf_lt _ _ _ F). clear - A. induction es as [|e es IH]; [reflexivity|]. cbn [filter].
  destruct (Nat.ltb_spec (fst e) n); [f_equal; apply IH; intros; apply A; right; auto|]. pose proof (A e (or_introl eq_refl)). lia.
Qed.

(** ** C54 for a static graph: on every graph built from a legal script with at most 2^32 vertices the check
    accepts exactly the graphs without loops and parallel edges in which every edge has its reverse edge with
    the same weight *)
Theorem C54_check_static : forall n m ops g, legal n ops -> M_Graph.build n m ops = Some g -> (N.of_nat n <= 2 ^ 32)%N ->
  (check_static g = true <->
   (forall v, v < n -> NoDup (map fst (M_Graph.edges_of g v))) /\
   (forall v t w, v < n -> In (t, w) (M_Graph.edges_of g v) -> t <> v /\ t < n /\ In (v, w) (M_Graph.edges_of g t))).
Proof.
  intros n m ops g L B Hn. destruct (build_ok n m ops L) as (g' & B' & F & _). rewrite B in B'. injection B' as <-.
  assert (S : StronglySorted le (map fst (noloop (req_edges ops)))) by (apply ss_filter, L). pose proof (all_edges_len n _ g F S) as LE.
  assert (IN : forall v t w, In (v, t, w) (all_edges g) <-> v < n /\ In (t, w) (M_Graph.edges_of g v)).
  { intros v t w. unfold all_edges. rewrite (gfin_n _ _ _ F), in_flat_map. split.
    - intros (u & Hu & H). apply in_seq in Hu. apply in_map_iff in H as ([a b] & E & H). cbn in E. injection E as -> -> ->. split; [lia|auto].
    - intros [Hv H]. exists v. split; [apply in_seq; lia|]. apply in_map_iff. exists (t, w). auto. }
  unfold check_static. rewrite <- LE, (gfin_n _ _ _ F).
  rewrite (chk_static n Hn (all_edges g)) by (intros [[v t] w] H; apply IN in H; cbn; apply H).
  unfold sym_edges. split.
  - intros [ND SY]. split.
    + unfold all_edges in ND. rewrite (gfin_n _ _ _ F) in ND. pose proof (proj1 (NoDup_rows (M_Graph.edges_of g) (seq 0 n) (seq_NoDup n 0)) ND) as ND2. intros v Hv. apply ND2, in_seq. lia.
    + intros v t w Hv H. destruct (SY v t w) as (A & B0 & C); [apply IN; auto|]. split; [auto|]. split; [auto|]. apply IN in C. apply C.
  - intros [ND SY]. split.
    + unfold all_edges. rewrite (gfin_n _ _ _ F). refine (proj2 (NoDup_rows (M_Graph.edges_of g) (seq 0 n) (seq_NoDup n 0)) _). intros v Hv. apply in_seq in Hv. apply ND. lia.
    + intros a b w H. apply IN in H as [Ha H]. destruct (SY a b w Ha H) as (A & B0 & C). split; [auto|]. split; [auto|]. apply IN. auto.
Qed.
Print Assumptions C54_check_static.

(* the contract of std::nth_element: a permutation whose entries before position k are not larger than those from k on *)
Definition nth_element_ok (ne : nat -> list (nat * N) -> list (nat * N)) : Prop :=
  forall k l, k <= length l -> Permutation l (ne k l) /\ forall x y, In x (firstn k (ne k l)) -> In y (skipn k (ne k l)) -> (snd x <= snd y)%N.

(** ** C55: top_k_degrees returns k different vertices, none of which has a smaller degree than a vertex left out *)
Theorem C55_top_k : forall ne G k, nth_element_ok ne -> k <= m_n G -> exists out, top_k_degrees ne G k = Some out /\ length out = k /\ NoDup out /\
  (forall v, In v out -> v < m_n G) /\ (forall v u, In v out -> u < m_n G -> ~ In u out -> (nth u (m_deg G) 0 <= nth v (m_deg G) 0)%N).
Proof.
  intros ne G k NE L. unfold top_k_degrees, find_top_k. rewrite map_length, seq_length. destruct (Nat.ltb_spec (m_n G) k); [lia|].
  set (l := map (fun v => (v, nth v (m_deg G) 0%N)) (seq 0 (m_n G))). assert (LL : length l = m_n G) by (unfold l; rewrite map_length, seq_length; reflexivity).
  destruct (NE (m_n G - k) l ltac:(lia)) as [P O]. set (l' := ne (m_n G - k) l) in *. eexists. split; [reflexivity|].
  pose proof (Permutation_length P) as LP. assert (MF : map fst l = seq 0 (m_n G)) by (unfold l; rewrite map_map; cbn; apply map_id).
  assert (ND : NoDup (map fst l')) by (apply (Permutation_NoDup (Permutation_map fst P)); rewrite MF; apply seq_NoDup).
  assert (DG : forall x, In x l' -> fst x < m_n G /\ snd x = nth (fst x) (m_deg G) 0%N).
  { intros x Hx. apply (Permutation_in _ (Permutation_sym P)) in Hx. unfold l in Hx. apply in_map_iff in Hx as (v & <- & Hv). apply in_seq in Hv. split; [cbn; lia|reflexivity]. }
  assert (SP : map fst l' = map fst (firstn (m_n G - k) l') ++ map fst (skipn (m_n G - k) l')) by (rewrite <- map_app, firstn_skipn; reflexivity).
  split; [rewrite map_length, skipn_length; lia|]. split; [rewrite SP in ND; apply NoDup_app_iff in ND; apply ND|]. split.
  - intros v Hv. apply in_map_iff in Hv as (x & <- & Hx). apply DG. rewrite <- (firstn_skipn (m_n G - k) l'). apply in_or_app. auto.
  - intros v u Hv Hu NU. apply in_map_iff in Hv as (x & <- & Hx).
    assert (IU : In u (map fst l')) by (apply (Permutation_in _ (Permutation_map fst P)); rewrite MF; apply in_seq; lia). rewrite SP in IU. apply in_app_or in IU as [IU|IU]; [|contradiction].
    apply in_map_iff in IU as (y & <- & Hy). pose proof (O y x Hy Hx) as Q.
    rewrite (proj2 (DG y ltac:(rewrite <- (firstn_skipn (m_n G - k) l'); apply in_or_app; auto))), (proj2 (DG x ltac:(rewrite <- (firstn_skipn (m_n G - k) l'); apply in_or_app; auto))) in Q. exact Q.
Qed.
Print Assumptions C55_top_k.

(** ** C56: centralFlowEdge does not exit and returns an edge of the graph in the middle of a longest shortest path
    from the end vertex v1 of the first search, for every start vertex that has an edge *)
Theorem C56_central_flow_edge : forall G r, mvalid G -> r < m_n G -> nth r (m_rows G) [] <> [] ->
  exists v e p w rv v1 D, central_flow_edge G r = Some (v, e, p) /\ slot (m_rows G) v e = Some (p, w, rv) /\
    reach (targets G) r v1 /\ (exists v2, hopdist (targets G) v1 v2 D) /\ (forall u k, hopdist (targets G) v1 u k -> k <= D) /\ 1 <= D /\
    hopdist (targets G) v1 v ((D + 1) / 2) /\ hopdist (targets G) v1 p ((D + 1) / 2 - 1).
Proof.
  intros G r V Hr NE. destruct (central_ok G V r Hr NE) as (v & e & p & w & rv & v1 & D & A1 & A2 & A3 & A4 & A5 & A6 & A7 & A8).
  exists v, e, p, w, rv, v1, D. repeat (split; [assumption|]). assumption.
Qed.
Print Assumptions C56_central_flow_edge.

(* a path with a branch: the graph is valid and accepted; the middle edge is 2-3 *)
Definition ga : mg := mg_of 6 [NewOrder 0 1 4; NewOrder 1 2 5; NewOrder 2 3 6; NewOrder 3 4 7; NewOrder 2 5 8].
Lemma ga_ok : mvalid ga /\ groups_exact 6 (m_cont ga) (m_pos ga).
Proof. destruct (mg_of_valid 6 [NewOrder 0 1 4; NewOrder 1 2 5; NewOrder 2 3 6; NewOrder 3 4 7; NewOrder 2 5 8] eq_refl) as [A [B C]]. split; [exact A|exact C]. Qed.
Example c54_run : check_mutable ga = Some true /\
  (* a second edge between 0 and 1 is rejected, a wrong degree too *)
  check_mutable (mg_of 3 [NewOrder 0 1 4; NewOrder 1 2 5; NewOrder 0 1 1]) = Some false /\
  check_mutable (mk_mg (m_rows ga) (upd (m_deg ga) 2 18%N) (m_part ga) (m_cut ga) (m_pos ga) (m_cont ga) (m_last ga) (m_ne ga) (m_pc ga) (m_orig ga)) = Some false.
Proof. vm_compute. repeat split. Qed.
Example c54_static : option_map check_static (M_Graph.build 3 4 c09_ops) = Some true /\ option_map check_static (M_Graph.build 5 4 c08_ops) = Some true /\
  option_map check_static (M_Graph.build 3 4 [M_Graph.BNode; M_Graph.BNode; M_Graph.BNode; M_Graph.BEdge 0 1 4; M_Graph.BEdge 1 2 6; M_Graph.BEdge 2 0 6]%N) = Some false.
Proof. vm_compute. repeat split. Qed.
Example c55_run : top_k_degrees (fun _ l => [(0, 4%N); (5, 8%N); (4, 7%N); (1, 9%N); (3, 13%N); (2, 19%N)]) ga 3 = Some [1; 3; 2].
Proof. vm_compute. reflexivity. Qed.
Example c56_hyps : mvalid ga /\ 2 < m_n ga /\ nth 2 (m_rows ga) [] <> [] /\ central_flow_edge ga 2 = Some (2, 1, 3) /\ central_flow_edge ga 5 = Some (2, 1, 3).
Proof. split; [exact (proj1 ga_ok)|]. vm_compute. repeat split; try lia; discriminate. Qed.
