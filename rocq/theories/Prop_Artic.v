(* Prop_Artic.v - properties C63, C64: articulation points. *)
From Coq Require Import Permutation.
From Verif Require Import SpecRel SpecMulti SpecMutable SpecArtic P_UnionFind P_Cut P_Mutable P_MutableIO P_Multi P_Kernel P_Kernel3 P_MultiCheck P_Artic4 Prop_Mutable Prop_Kernel.

(** ** C63: the articulation point rule neither exits nor loops nor reads an undefined parent, and a round with it keeps
    "deleted weight plus optimum" - for every valid graph, also with parallel edges and several components, and any number of terminals *)
Theorem C63_articulation_rule : forall G maps origs T ord, (forall l, Permutation (ord l) l) -> kstate G maps origs T -> 0 < length T ->
  exists G' ts' w T', rule_step ap_rule ord maps origs G = Some (G', ts', w) /\ kstate G' maps origs T' /\
    map fst ts' = filter (fun v => 0 <? length (nth v (m_rows G') [])) T' /\ keeps_optimum G T G' T' w.
Proof.
  intros G maps origs T ord OP KS PT. destruct (rule_step_ok ap_rule ord G maps origs T OP KS) as (G' & ts' & w & T' & A); auto.
  - apply ap_rule_ok; [apply (ks_valid _ _ _ _ KS)|]. intros t H. apply filter_In in H. destruct H as [_ H]. apply Nat.ltb_lt in H.
    destruct (Nat.lt_ge_cases t (m_n G)) as [|L]; [auto|]. rewrite (nth_overflow (m_rows G) [] L) in H. cbn in H. lia.
  - exists G', ts', w, T'. exact A.
Qed.
Print Assumptions C63_articulation_rule.

(** the terminals on both sides: for any list of vertices as terminals there is a value, never exit(1) *)
Theorem C63_never_exits : forall G ts, mvalid G -> (forall t, In t ts -> t < m_n G) -> exists s r, find_all_aps (m_rows G) = Some s /\
  terminals_on_both_sides (m_rows G) s ts = Some (ap_uf r).
Proof.
  intros G ts [VR _] HT. destruct (nbrs_valid _ VR) as [NR NS]. destruct (find_all_ok (m_rows G) NR NS) as (s & E & I & ALL).
  destruct (sides_ok (m_rows G) NR NS s I ALL ts HT (a_aps s) [] [] (uf_init (length (m_rows G))) false) as (r & ps & gs & ER & _).
  - intros v Hv. apply (i_aps _ _ _ I) in Hv. apply (i_rng _ _ _ I), Hv.
  - apply inv_init.
  - intros ? ? [].
  - intros ? [].
  - intros ? [].
  - auto.
  - exists s, r. auto.
Qed.
Print Assumptions C63_never_exits.

(* two blocks hang at 3 and at 2; 6 and 9 are leaves *)
Definition art_ops : list mop := [NewOrder 0 3 4; NewOrder 3 1 2; NewOrder 1 2 5; NewOrder 2 0 1; NewOrder 3 4 5; NewOrder 4 5 2; NewOrder 5 3 4; NewOrder 5 6 1;
  NewOrder 2 7 3; NewOrder 7 8 3; NewOrder 8 2 1; NewOrder 8 9 7].
Definition artg : mg := mg_of 10 art_ops.
Example c63_hyps : kstate artg [] [0; 1; 9] [0; 1; 9] /\ 0 < length [0; 1; 9].
Proof.
  split; [|cbn; lia]. destruct (mg_of_valid 10 art_ops eq_refl) as [A [B C]]. apply kstate_of; [exact A|exact C|reflexivity].
Qed.
(* 4, 5, 6 are merged into 3 *)
Example c63_run : option_map (fun r => (show (fst (fst r)), snd (fst r), N.to_nat (snd r))) (rule_step ap_rule (fun l => l) [] [0; 1; 9] artg) =
  Some ([[(3, 4, 0); (2, 1, 1)]; [(3, 2, 1); (2, 5, 0)]; [(1, 5, 1); (0, 1, 1); (4, 3, 0); (5, 1, 1)]; [(0, 4, 0); (1, 2, 0)]; [(2, 3, 2); (5, 3, 0)];
     [(4, 3, 1); (2, 1, 3); (6, 7, 0)]; [(5, 7, 2)]], [5; 7; 10; 6; 6; 11; 7], 16, [(0, 0); (1, 1); (6, 2)], 0).
Proof. vm_compute. reflexivity. Qed.
(* all terminals on one side: everything is merged into 5, and the edge to the other terminal is deleted *)
Example c63_run_left : option_map (fun r => (show (fst (fst r)), snd (fst r), N.to_nat (snd r))) (rule_step ap_rule (fun l => l) [] [6; 5] artg) =
  Some ([[]; []], [0; 0], 0, [], 1).
Proof. vm_compute. reflexivity. Qed.

(** ** C64: findAllArticulationPoints ends and finds exactly the articulation points, except a vertex that is the first
    one of its component *)
Theorem C64_articulation_points : forall G, mvalid G -> exists s, find_all_aps (m_rows G) = Some s /\
  forall x, In x (a_aps s) <-> articulation (fun a b => In b (ap_nbrs (m_rows G) a)) x /\ exists m, m < x /\ joined (fun a b => In b (ap_nbrs (m_rows G) a)) (fun _ => True) m x.
Proof.
  intros G [VR _]. destruct (nbrs_valid _ VR) as [NR NS]. destruct (find_all_ok (m_rows G) NR NS) as (s & E & I & ALL). exists s. split; [exact E|].
  intro x. apply (aps_exact (m_rows G) NR NS s I ALL x).
Qed.
Print Assumptions C64_articulation_points.

Example c64_run : mvalid artg /\ option_map a_aps (find_all_aps (m_rows artg)) = Some [8; 5; 3; 2].
Proof. split; [destruct (mg_of_valid 10 art_ops eq_refl) as [A _]; exact A|vm_compute; reflexivity]. Qed.

(** the middle vertex of a path is an articulation point; it is not found if it is the first vertex *)
Definition mid_ops : list mop := [NewOrder 0 1 1; NewOrder 0 2 1].
Theorem C64_first_vertex_refuted : exists G, mvalid G /\ articulation (fun a b => In b (ap_nbrs (m_rows G) a)) 0 /\
  exists s, find_all_aps (m_rows G) = Some s /\ a_aps s = [].
Proof.
  exists (mg_of 3 mid_ops). destruct (mg_of_valid 3 mid_ops eq_refl) as [A _]. split; [exact A|].
  assert (N0 : ap_nbrs (m_rows (mg_of 3 mid_ops)) 0 = [1; 2]) by (vm_compute; reflexivity).
  assert (N1 : ap_nbrs (m_rows (mg_of 3 mid_ops)) 1 = [0]) by (vm_compute; reflexivity).
  assert (X : option_map a_aps (find_all_aps (m_rows (mg_of 3 mid_ops))) = Some []) by (vm_compute; reflexivity).
  split.
  - generalize dependent (m_rows (mg_of 3 mid_ops)). intros R N0 N1 _. exists 1, 2. split; [discriminate|]. split; [discriminate|]. split.
    + apply (joined_step _ _ 1 0 2); [auto|rewrite N1; left; auto|]. apply (joined_step _ _ 0 2 2); [auto|rewrite N0; right; left; auto|constructor; auto].
    + intro J. inversion J as [|u v w Hu Huv J']. subst. assert (H : v = 0) by (rewrite N1 in Huv; destruct Huv as [<-|[]]; reflexivity). subst v. exact (proj1 (joined_ok _ _ _ _ J') eq_refl).
  - destruct (find_all_aps (m_rows (mg_of 3 mid_ops))) as [s|]; [|discriminate X]. exists s. split; [reflexivity|]. injection X as X. exact X.
Qed.
Print Assumptions C64_first_vertex_refuted.
