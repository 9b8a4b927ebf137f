(* Prop_Recursive2.v - property C77: one call of internalRecursiveCactus (recursive_cactus.h:134-225) whose recursive calls return correct
   cactuses returns the cactus of all minimum cuts, unless it takes a single vertex out as a leaf (171-198; see C75). *)
From Verif Require Import SpecCut SpecDyn SpecFlow SpecMutable LibZ M_Mutable P_Mutable P_Cut P_LocalSearch P_LocalSearch2 P_AllMincuts P_MutableIO M_PushRelabel Prop_Flow Prop_LimFlow Prop_StCactus M_StCactus M_Merge M_Branch M_Recursive P_ContractStd2 P_Merge3 P_Recursive2 P_Recursive5 P_Recursive7 P_Recursive8 Prop_Recursive Prop_Mutable P_Check.

(** neither end of the flow edge is a minimum cut alone, or two different minimum cuts separate the ends (then there are more than two blocks) *)
Definition no_leaf (G : mg) (c : N) (s t : nat) : Prop :=
  (nth s (m_deg G) 0%N <> c /\ nth t (m_deg G) 0%N <> c) \/
  exists S S' u, u < m_n G /\ gcut G S = c /\ gcut G S' = c /\ S s <> S t /\ S' s <> S' t /\ S s = S' s /\ S u <> S' u.

(** C77: rec returns, for every smaller graph without empty vertices, a graph whose cuts of weight c are the minimum cuts (records good
    of P_Recursive2.v, rep of P_Merge3.v).  For both choices of the flow edge, every choice of random vertices, every order of discharges
    and hash sets: the call ends and its result represents exactly the minimum cuts of G *)
Theorem C77_component_step : forall n c G ord bfs rec pick gl rv pid, (0 < c)%N -> (c < 2 ^ 32)%N -> good n c G -> (forall l, Permutation (ord l) l) ->
  (forall p k q, q <> [] -> In (pick p k q) q) -> (forall p, rv p < m_n G) ->
  (forall p H, good n c H -> m_n H < m_n G -> exists N p', rec p H = Some (N, p') /\ rep n c (mincuts_of n c H) N) ->
  forall sel, (forall p H, sel p H = random_edges rv p H) \/ (forall p H, sel p H = max_weighted_edge H (rv p)) ->
  (forall s e t, 2 < m_n G -> sel pid G = Some (s, e, t) -> no_leaf G c s t) ->
  exists fuel, forall fuel', fuel <= fuel' -> exists M p', inner_cactus c sel (code_flows fuel' pick gl) ord bfs rec G pid = Some (M, p') /\ rep n c (mincuts_of n c G) M.
Proof.
  intros n c G ord bfs rec pick gl rv pid Pc Wc GD Or Pk Rv Rec sel Sel NL. pose proof (gd_some _ _ _ GD) as N1. destruct (Nat.eq_dec (m_n G) 1) as [E1|N2].
  - exists 0. intros fuel' _. exists G, pid. split; [|apply one_ok; auto]. unfold inner_cactus. rewrite E1. reflexivity.
  - assert (H2 : 2 <= m_n G) by lia.
    assert (ES : exists s e t w r, sel pid G = Some (s, e, t) /\ slot (m_rows G) s e = Some (t, w, r)).
    { destruct Sel as [Sel|Sel]; rewrite Sel.
      - unfold random_edges. destruct (m_n G) as [|k] eqn:E; [lia|]. destruct (find_edge_ok n c Pc G GD ltac:(lia) (rv pid) k) as (t & w & r & A & B); [rewrite E; apply Rv|]. exists (rv pid), 0, t, w, r. auto.
      - apply (weighted_edge_ok n c Pc G GD H2). }
    destruct ES as (s & e & t & w & r & Es & Sl). destruct (ends_ok n c G GD s e t w r Sl) as (Hs & Ht & Nst & _).
    destruct (pr_flow_ok (m_rows G) s t (pick (S pid)) (gl (S pid)) (proj1 (gd_valid _ _ _ GD)) Hs Ht Nst (Pk (S pid))) as (fuel & x & fl & Run & MF).
    exists fuel. intros fuel' Hf. apply (step_ok n c Pc Wc G GD ord Or bfs sel (code_flows fuel' pick gl) rec pid Rec s e t w r Sl x fl MF H2 Es).
    + unfold code_flows. apply Run. auto.
    + intro H3. apply (NL s e t H3 Es).
Qed.
Print Assumptions C77_component_step.

(** ** Concrete cases *)
(** a new graph of n vertices *)
Lemma fresh_good n c G : mvalid G -> m_n G = n -> m_last G = n -> m_orig G = n -> m_pos G = seq 0 n -> length (m_cont G) = n -> (forall p, p < n -> nth p (m_cont G) [] = [p]) -> length (m_part G) = n -> length (m_cut G) = n ->
  no_parallel (m_rows G) -> no_zero (m_rows G) -> atleast c n (wt (adj (m_rows G))) -> 1 <= n -> good n c G.
Proof.
  intros V E1 E2 E3 E4 E5 Q L1 L2 NP NZ Lo Sm.
  constructor; auto; try congruence.
  - rewrite E4, seq_length. reflexivity.
  - intros x Hx. rewrite E4, seq_nth by auto. lia.
  - split; [lia|]. intros p x Hp. rewrite Q by lia. rewrite E4, seq_length. split.
    + intros [<-|[]]. split; [lia|]. rewrite seq_nth by lia. reflexivity.
    + intros [A B]. rewrite seq_nth in B by auto. left. auto.
  - split; [congruence|]. split; congruence.
  - intros p Hp. rewrite Q by lia. discriminate.
  - rewrite E1. auto.
Qed.

(** correct recursive results for at most two vertices *)
Definition rec_two (c : N) (p : nat) (H : mg) : option (mg * nat) :=
  if (m_n H =? 1) || (gcut H (fun u => Nat.eqb u 0%nat) =? c)%N then Some (H, p) else option_map (fun H' => (H', p)) (contract_edge_std H 0 0).
Lemma rec_two_ok n c p H : (0 < c)%N -> good n c H -> m_n H < 3 -> exists N p', rec_two c p H = Some (N, p') /\ rep n c (mincuts_of n c H) N.
Proof.
  intros Pc GH L. pose proof (gd_some _ _ _ GH). unfold rec_two. destruct (Nat.eqb_spec (m_n H) 1) as [E1|N1]; cbn [orb]; [exists H, p; split; [reflexivity|apply one_ok; auto]|].
  assert (E2 : m_n H = 2) by lia. destruct (N.eqb_spec (gcut H (fun u => Nat.eqb u 0%nat)) c) as [Ec|Nc]; [exists H, p; split; [reflexivity|apply two_ok; auto]|].
  destruct (row_some n c Pc H GH ltac:(lia) 0 ltac:(lia)) as (t & w & r & Sl). destruct (proj1 (gd_valid _ _ _ GH) 0 0 t w r Sl) as (Ht & Nt & _). change (length (m_rows H)) with (m_n H) in Ht.
  destruct (edge_ok n c H GH 0 0 t w r Sl ltac:(auto)) as (K & h & EK & GK & Less & CL & ME & CO & PO). rewrite EK. exists K, p. split; [reflexivity|].
  pose proof (gd_some _ _ _ GK). apply (rep_iff n c _ _ K (mincuts_family n c K GK)); [|apply one_ok; auto; lia]. apply (edge_cuts n c H GH 0 t K h); auto; try lia.
  intros S P E. exfalso. apply Nc. rewrite <- E. assert (Sy : symm (m_n H) (wt (adj (m_rows H)))) by (apply valid_symm; apply (gd_valid _ _ _ GH)).
  destruct (S 0) eqn:S0; destruct (S 1) eqn:S1.
  - exfalso. destruct P as [_ (b & Hb & Sb)]. assert (b = 0 \/ b = 1) as [->| ->] by lia; congruence.
  - apply gcut_ext. intros u Hu. assert (u = 0 \/ u = 1) as [->| ->] by lia; cbn; auto.
  - unfold gcut. rewrite <- (cutw_compl (m_n H) _ S Sy). apply cutw_ext. intros u Hu. assert (u = 0 \/ u = 1) as [->| ->] by lia; cbn; [rewrite S0|rewrite S1]; reflexivity.
  - exfalso. destruct P as [(b & Hb & Sb) _]. assert (b = 0 \/ b = 1) as [->| ->] by lia; congruence.
Qed.

(** a triangle: the minimum cut is 2 and every vertex alone is a minimum cut *)
Definition tri : mg := match fold_opt (fun M e => m_new_edge M (fst e) (snd e) 1%N) [(0, 1); (0, 2); (1, 2)] (start_construction 3) with Some M => m_finish M | None => start_construction 3 end.
Lemma tri_valid : mvalid tri.
Proof.
  assert (K : forall es M, mvalid M -> m_n M = 3 -> forallb (fun e => (fst e <? snd e) && (snd e <? 3)) es = true ->
     match fold_opt (fun M e => m_new_edge M (fst e) (snd e) 1%N) es M with Some M' => mvalid M' | None => True end).
  { induction es as [|[a b] es IH]; intros M V N H; cbn [fold_opt]; [auto|]. cbn [forallb fst snd] in H. apply andb_true_iff in H. destruct H as [H1 H2]. apply andb_true_iff in H1. destruct H1 as [H0 H1]. apply Nat.ltb_lt in H0, H1.
    cbn [fst snd]. destruct (new_edge_ok M a b 1%N V H0 ltac:(lia)) as (M' & E & V' & N' & _). rewrite E. apply IH; auto. congruence. }
  pose proof (K [(0, 1); (0, 2); (1, 2)] (start_construction 3)) as H. unfold tri. destruct (fold_opt _ [(0, 1); (0, 2); (1, 2)] (start_construction 3)) as [M|] eqn:E; [|vm_compute in E; discriminate E].
  assert (Q : mvalid M) by (apply H; [apply (start_cut 3)|apply (start_cut 3)|vm_compute; reflexivity]). exact Q.
Qed.

Lemma tri_good : good 3 2 tri.
Proof.
  apply fresh_good; try (vm_compute; reflexivity).
  - apply tri_valid.
  - intros p Hp. destruct p as [|[|[|p]]]; try lia; vm_compute; reflexivity.
  - intro v. destruct v as [|[|[|v]]]; [| | |change (nth (S (S (S v))) (m_rows tri) []) with (nth v (@nil (list half)) []); destruct v; constructor];
      (vm_compute; repeat (constructor; [intros Q; cbn in Q; intuition congruence|]); constructor).
  - intros v t w r I. assert (A : forallb (fun row => forallb (fun h : half => negb (snd (fst h) =? 0)%N) row) (m_rows tri) = true) by (vm_compute; reflexivity).
    rewrite forallb_forall in A. destruct (Nat.lt_ge_cases v (length (m_rows tri))) as [L|L]; [|rewrite nth_overflow in I by auto; destruct I].
    specialize (A _ (nth_In _ [] L)). rewrite forallb_forall in A. specialize (A _ I). cbn [fst snd] in A. apply negb_true_iff, N.eqb_neq in A. exact A.
  - destruct (mincut_rows tri 2) as [_ B]; [apply (mincut_check (adj (m_rows tri)) 2 [true; false; false]); vm_compute; reflexivity|]. intros S P. apply B. exact P.
  - lia.
Qed.
(** vertex 0 and vertex 1 are separated by the minimum cuts {0} and {1} *)
Lemma tri_leaf s t : s < 3 -> t < 3 -> s <> t -> no_leaf tri 2 s t.
Proof.
  intros Hs Ht N. right. exists (fun u => u =? s), (fun u => negb (u =? t)), (3 - s - t).
  destruct s as [|[|[|s]]]; try lia; destruct t as [|[|[|t]]]; try lia; cbn -[tri gcut]; (split; [vm_compute; auto|]); (split; [vm_compute; reflexivity|]); (split; [vm_compute; reflexivity|]); (split; [discriminate|]); (split; [discriminate|]); (split; [reflexivity|discriminate]).
Qed.
Definition tri_pick (p k : nat) (q : list nat) : nat := nth 0 q 0.
Example c77_case : exists fuel, forall fuel', fuel <= fuel' -> exists M p', inner_cactus 2 (fun p G => max_weighted_edge G 1) (code_flows fuel' tri_pick (fun _ _ => false)) (fun l => l) 10 (rec_two 2) tri 0 = Some (M, p') /\ rep 3 2 (mincuts_of 3 2 tri) M.
Proof.
  assert (N3 : m_n tri = 3) by (vm_compute; reflexivity).
  apply (C77_component_step 3 2 tri (fun l => l) 10 (rec_two 2) tri_pick (fun _ _ => false) (fun _ => 1)).
  - reflexivity.
  - reflexivity.
  - apply tri_good.
  - intro l. apply Permutation_refl.
  - intros p k q NE. destruct q; [congruence|]. left. reflexivity.
  - intro p. rewrite N3. lia.
  - intros p H GH L. apply rec_two_ok; [reflexivity|auto|lia].
  - right. reflexivity.
  - intros s e t _ E. assert (Q : max_weighted_edge tri 1 = Some (0, 0, 1)) by (vm_compute; reflexivity). rewrite Q in E. injection E as <- <- <-. apply tri_leaf; lia.
Qed.
(** the result: each vertex alone, three edges of weight 1 *)
Example c77_result : match inner_cactus 2 (fun p G => max_weighted_edge G 1) (code_flows 100 tri_pick (fun _ _ => false)) (fun l => l) 10 (rec_two 2) tri 0 with
  Some (M, p') => Some (m_n M, m_cont M, map (map (fun h : half => (fst (fst h), snd (fst h)))) (m_rows M), p') | None => None end = Some (3, [[0]; [1]; [2]], [[(1, 1%N); (2, 1%N)]; [(0, 1%N); (2, 1%N)]; [(1, 1%N); (0, 1%N)]], 1).
Proof. vm_compute. reflexivity. Qed.
