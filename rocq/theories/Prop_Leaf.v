(* Prop_Leaf.v - property C78: one call of internalRecursiveCactus (recursive_cactus.h:134-225), now with the branch that takes a single
   vertex out and puts it back as a leaf (171-198): if the recursive calls are right on graphs in which some vertices have been taken
   out, the call returns the cactus of all minimum cuts.  (C75: the recursive calls are not always right on such graphs.) *)
From Verif Require Import SpecCut SpecDyn SpecFlow SpecMutable LibZ M_Mutable P_Mutable P_Cut P_LocalSearch P_LocalSearch2 P_AllMincuts P_MutableIO M_PushRelabel Prop_Flow Prop_LimFlow Prop_StCactus M_StCactus M_Merge M_Branch M_Recursive P_ContractStd2 P_Merge3 P_Recursive2 P_Recursive5 P_Recursive7 P_Recursive8 P_Leaf P_Recursive9 P_Recursive10 Prop_Recursive Prop_Mutable P_Check Prop_Recursive2.

(** C78: A, the original vertices that are in H (records good_live of P_Recursive9.v, rep_live of P_Leaf.v) *)
Theorem C78_step : forall n c G ord bfs rec pick gl rv pid, (0 < c)%N -> (c < 2 ^ 32)%N -> good n c G -> (forall l, Permutation (ord l) l) ->
  (forall p k q, q <> [] -> In (pick p k q) q) -> (forall p, rv p < m_n G) ->
  (forall A p H, good_live n c A H -> m_n H < m_n G -> exists N p', rec p H = Some (N, p') /\ rep_live n c A (mincuts_live n c A H) N) ->
  forall sel, (forall p H, sel p H = random_edges rv p H) \/ (forall p H, sel p H = max_weighted_edge H (rv p)) ->
  exists fuel, forall fuel', fuel <= fuel' -> exists M p', inner_cactus c sel (code_flows fuel' pick gl) ord bfs rec G pid = Some (M, p') /\ rep n c (mincuts_of n c G) M.
Proof.
  intros n c G ord bfs rec pick gl rv pid Pc Wc GD Or Pk Rv Rec sel Sel. pose proof (gd_some _ _ _ GD) as N1. destruct (Nat.eq_dec (m_n G) 1) as [E1|N2].
  - exists 0. intros fuel' _. exists G, pid. split; [|apply one_ok; auto]. unfold inner_cactus. rewrite E1. reflexivity.
  - assert (H2 : 2 <= m_n G) by lia.
    assert (ES : exists s e t w r, sel pid G = Some (s, e, t) /\ slot (m_rows G) s e = Some (t, w, r)).
    { destruct Sel as [Sel|Sel]; rewrite Sel.
      - unfold random_edges. destruct (m_n G) as [|k] eqn:E; [lia|]. destruct (find_edge_ok n c Pc G GD ltac:(lia) (rv pid) k) as (t & w & r & A & B); [rewrite E; apply Rv|]. exists (rv pid), 0, t, w, r. auto.
      - apply (weighted_edge_ok n c Pc G GD H2). }
    destruct ES as (s & e & t & w & r & Es & Sl). destruct (ends_ok n c G GD s e t w r Sl) as (Hs & Ht & Nst & _).
    destruct (pr_flow_ok (m_rows G) s t (pick (S pid)) (gl (S pid)) (proj1 (gd_valid _ _ _ GD)) Hs Ht Nst (Pk (S pid))) as (fuel & x & fl & Run & MF).
    exists fuel. intros fuel' Hf. apply (full_step n c Pc Wc G GD ord Or bfs sel (code_flows fuel' pick gl) rec pid Rec s e t w r Sl x fl MF H2 Es).
    unfold code_flows. apply Run. auto.
Qed.
Print Assumptions C78_step.

(** ** A concrete case: the path 0 - 1 - 2, minimum cut 1 *)
(** correct recursive results for at most two vertices of which some have been taken out *)
Definition one_vertex (n : nat) (l : list nat) : mg := mk_mg [[]] [0%N] [0] [false] (repeat 0 n) [l] 1 0 0 n.
Definition rec_live (n : nat) (c : N) (p : nat) (H : mg) : option (mg * nat) :=
  if (m_n H =? 1) || (gcut H (fun u => Nat.eqb u 0%nat) =? c)%N then Some (H, p) else Some (one_vertex n (nth 0 (m_cont H) [] ++ nth 1 (m_cont H) []), p).
Lemma one_no_cut S : ~ proper 1 S.
Proof. intros [(a & Ha & Sa) (b & Hb & Sb)]. assert (a = b) by lia. congruence. Qed.
Lemma rec_live_ok n c A p H : (0 < c)%N -> good_live n c A H -> m_n H < 3 -> exists N p', rec_live n c p H = Some (N, p') /\ rep_live n c A (mincuts_live n c A H) N.
Proof.
  intros Pc GH L. pose proof (gl_some _ _ _ _ GH) as Sm. destruct (gl_lens _ _ _ _ GH) as (L1 & L2 & L3). unfold rec_live. destruct (Nat.eqb_spec (m_n H) 1) as [E1|N1]; cbn [orb].
  - exists H, p. split; [reflexivity|]. destruct GH as [A1 A2 A3 A4 A5 A6 A7 A8 A9 A10 A11 A12]. constructor; auto.
    + split; [auto|]. split; [auto|]. split; [auto|]. intros v t w r I. exfalso. apply row_slot in I as (e & S). destruct (proj1 A1 v e t w r S) as (H1 & H2 & _). destruct (slot_lt _ _ _ _ S) as [H3 _]. unfold m_n in E1. lia.
    + intros a b Ha Hb Nab. lia.
    + intros f P. rewrite E1 in P. destruct (one_no_cut f P).
    + intros Y (S & P & _). rewrite E1 in P. destruct (one_no_cut S P).
  - assert (E2 : m_n H = 2) by lia. assert (Sy : symm (m_n H) (wt (adj (m_rows H)))) by (apply valid_symm; apply (gl_valid _ _ _ _ GH)).
    destruct (N.eqb_spec (gcut H (fun u => Nat.eqb u 0%nat)) c) as [Ec|Nc].
    + exists H, p. split; [reflexivity|]. destruct GH as [A1 A2 A3 A4 A5 A6 A7 A8 A9 A10 A11 A12].
      assert (W1 : wt (adj (m_rows H)) 0 1 = c). { unfold gcut in Ec. rewrite E2 in Ec. unfold cutw in Ec. cbn in Ec. rewrite !N.add_0_r in Ec. lia. }
      assert (W2 : wt (adj (m_rows H)) 1 0 = c). { rewrite <- W1. apply Sy; lia. }
      constructor; auto.
      * split; [auto|]. split; [auto|]. split; [auto|]. intros v t w r I. left. pose proof I as I0. apply row_slot in I as (e & S). destruct (proj1 A1 v e t w r S) as (H1 & H2 & _). destruct (slot_lt _ _ _ _ S) as [H3 _].
        fold (m_n H) in *. change (length (m_rows H)) with (m_n H) in *. rewrite E2 in *. pose proof (edge_simple (m_rows H) v t w r A9 I0) as X.
        assert ((v = 0 /\ t = 1) \/ (v = 1 /\ t = 0)) as [[-> ->]|[-> ->]] by lia; congruence.
      * intros a b Ha Hb Nab. exists (fun u => u =? 0). split; [|exact Ec]. rewrite E2 in *. assert ((a = 0 /\ b = 1) \/ (a = 1 /\ b = 0)) as [[-> ->]|[-> ->]] by lia; discriminate.
      * intros f P E. exists f. auto.
      * intros Y (S & P & E & B). exists S. split; [auto|]. intros x Hx Ax. symmetry. auto.
    + assert (NoC : forall S, proper 2 S -> gcut H S <> c).
      { intros S P E. apply Nc. rewrite <- E. destruct (S 0) eqn:S0; destruct (S 1) eqn:S1.
        - exfalso. destruct P as [_ (b & Hb & Sb)]. assert (b = 0 \/ b = 1) as [->| ->] by lia; congruence.
        - apply gcut_ext. intros u Hu. assert (u = 0 \/ u = 1) as [->| ->] by lia; cbn; auto.
        - unfold gcut. rewrite <- (cutw_compl (m_n H) _ S Sy). apply cutw_ext. intros u Hu. assert (u = 0 \/ u = 1) as [->| ->] by lia; cbn; [rewrite S0|rewrite S1]; reflexivity.
        - exfalso. destruct P as [(b & Hb & Sb) _]. assert (b = 0 \/ b = 1) as [->| ->] by lia; congruence. }
      eexists _, p. split; [reflexivity|]. set (l := nth 0 (m_cont H) [] ++ nth 1 (m_cont H) []).
      assert (Sl : forall v e h, slot [[]] v e = Some h -> False). { intros v e h Q. unfold slot in Q. destruct v as [|[|v]]; cbn in Q; destruct e; discriminate Q. }
      constructor; cbn [one_vertex m_rows m_deg m_part m_cut m_pos m_cont m_last m_orig]; try reflexivity; unfold m_n; cbn [one_vertex m_rows length].
      * split; [|split].
        -- intros v e t w r Q. destruct (Sl _ _ _ Q).
        -- split; [reflexivity|]. intros v Hv. assert (v = 0) as -> by (cbn in Hv; lia). reflexivity.
        -- unfold count_exact. reflexivity.
      * apply repeat_length.
      * intros x Hx _. rewrite nth_repeat. lia.
      * intros q x Hq. assert (q = 0) as -> by lia. cbn [nth]. unfold l. rewrite in_app_iff, (gl_groups _ _ _ _ GH 0 x ltac:(lia)), (gl_groups _ _ _ _ GH 1 x ltac:(lia)), nth_repeat. split; [intuition|].
        intros (Hx & Ax & _). pose proof (gl_range _ _ _ _ GH x Hx Ax). assert (nth x (m_pos H) 0 = 0 \/ nth x (m_pos H) 0 = 1) as [Q|Q] by lia; [left|right]; auto.
      * split; [reflexivity|]. split; [reflexivity|]. split; [reflexivity|]. intros v t w r I. destruct v as [|[|v]]; destruct I.
      * intro v. destruct v as [|[|v]]; constructor.
      * intros S P. destruct (one_no_cut S P).
      * intros a b Ha Hb Nab. lia.
      * intros f P. destruct (one_no_cut f P).
      * intros Y (S & P & E & _). rewrite E2 in P. destruct (NoC S P E).
Qed.

Definition path3 : mg := match fold_opt (fun M e => m_new_edge M (fst e) (snd e) 1%N) [(0, 1); (1, 2)] (start_construction 3) with Some M => m_finish M | None => start_construction 3 end.
Lemma path3_valid : mvalid path3.
Proof.
  assert (K : forall es M, mvalid M -> m_n M = 3 -> forallb (fun e => (fst e <? snd e) && (snd e <? 3)) es = true ->
     match fold_opt (fun M e => m_new_edge M (fst e) (snd e) 1%N) es M with Some M' => mvalid M' | None => True end).
  { induction es as [|[a b] es IH]; intros M V N H; cbn [fold_opt]; [auto|]. cbn [forallb fst snd] in H. apply andb_true_iff in H. destruct H as [H1 H2]. apply andb_true_iff in H1. destruct H1 as [H0 H1]. apply Nat.ltb_lt in H0, H1.
    cbn [fst snd]. destruct (new_edge_ok M a b 1%N V H0 ltac:(lia)) as (M' & E & V' & N' & _). rewrite E. apply IH; auto. congruence. }
  pose proof (K [(0, 1); (1, 2)] (start_construction 3)) as H. unfold path3. destruct (fold_opt _ [(0, 1); (1, 2)] (start_construction 3)) as [M|] eqn:E; [|vm_compute in E; discriminate E].
  assert (Q : mvalid M) by (apply H; [apply (start_cut 3)|apply (start_cut 3)|vm_compute; reflexivity]). exact Q.
Qed.
Lemma path3_good : good 3 1 path3.
Proof.
  apply fresh_good; try (vm_compute; reflexivity).
  - apply path3_valid.
  - intros p Hp. destruct p as [|[|[|p]]]; try lia; vm_compute; reflexivity.
  - intro v. destruct v as [|[|[|v]]]; [| | |change (nth (S (S (S v))) (m_rows path3) []) with (nth v (@nil (list half)) []); destruct v; constructor];
      (vm_compute; repeat (constructor; [intros Q; cbn in Q; intuition congruence|]); constructor).
  - intros v t w r I. assert (A : forallb (fun row => forallb (fun h : half => negb (snd (fst h) =? 0)%N) row) (m_rows path3) = true) by (vm_compute; reflexivity).
    rewrite forallb_forall in A. destruct (Nat.lt_ge_cases v (length (m_rows path3))) as [L|L]; [|rewrite nth_overflow in I by auto; destruct I].
    specialize (A _ (nth_In _ [] L)). rewrite forallb_forall in A. specialize (A _ I). cbn [fst snd] in A. apply negb_true_iff, N.eqb_neq in A. exact A.
  - destruct (mincut_rows path3 1) as [_ B]; [apply (mincut_check (adj (m_rows path3)) 1 [true; false; false]); vm_compute; reflexivity|]. intros S P. apply B. exact P.
  - lia.
Qed.
Example c78_case : exists fuel, forall fuel', fuel <= fuel' -> exists M p', inner_cactus 1 (random_edges (fun _ => 0)) (code_flows fuel' tri_pick (fun _ _ => false)) (fun l => l) 10 (rec_live 3 1) path3 0 = Some (M, p') /\ rep 3 1 (mincuts_of 3 1 path3) M.
Proof.
  assert (N3 : m_n path3 = 3) by (vm_compute; reflexivity).
  apply (C78_step 3 1 path3 (fun l => l) 10 (rec_live 3 1) tri_pick (fun _ _ => false) (fun _ => 0)).
  - reflexivity.
  - reflexivity.
  - apply path3_good.
  - intro l. apply Permutation_refl.
  - intros p k q NE. destruct q; [congruence|]. left. reflexivity.
  - intro p. rewrite N3. lia.
  - intros A p H GH L. apply rec_live_ok; [reflexivity|auto|lia].
  - left. reflexivity.
Qed.
(** vertex 0 is taken out, and put back as the last vertex of the result *)
Example c78_result : match inner_cactus 1 (random_edges (fun _ => 0)) (code_flows 100 tri_pick (fun _ _ => false)) (fun l => l) 10 (rec_live 3 1) path3 0 with
  Some (M, p') => Some (m_n M, m_cont M, map (map (fun h : half => (fst (fst h), snd (fst h)))) (m_rows M), p') | None => None end = Some (3, [[1]; [2]; [0]], [[(1, 1%N); (2, 1%N)]; [(0, 1%N)]; [(0, 1%N)]], 1).
Proof. vm_compute. reflexivity. Qed.
