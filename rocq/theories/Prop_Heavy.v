(* Prop_Heavy.v - property C79: removeHeavyEdges (heavy_edges.h:29-94) and reInsertVertices (196-210) on a graph: the reduced graph can be
   worked on instead of the whole one, and putting the leaves back into its cactus gives the cactus of the whole graph. *)
From Verif Require Import SpecCut SpecDyn SpecFlow SpecMutable LibZ M_Mutable P_Mutable P_Cut P_LocalSearch P_LocalSearch2 P_AllMincuts P_MutableIO M_PushRelabel Prop_Flow Prop_LimFlow Prop_StCactus M_StCactus M_Merge M_Branch M_Recursive P_ContractStd2 P_StCactus9 P_Merge3 P_Recursive2 P_Recursive5 P_Recursive7 P_Recursive8 P_Leaf P_Recursive9 P_Recursive10 Prop_Recursive Prop_Mutable P_Check Prop_Recursive2 Prop_Leaf P_Heavy P_Heavy2 P_Heavy3 P_Heavy4.

Lemma in_keys (cm : list (nat * list nat)) k l : In (k, l) (map (fun k => (k, match find (fun e => fst e =? k) cm with Some e => snd e | None => [] end)) (map fst cm)) -> In (k, l) cm.
Proof.
  intro I. apply in_map_iff in I as (k' & E & I). injection E as -> El. destruct (find (fun e => fst e =? k) cm) as [[a b]|] eqn:F.
  - apply find_some in F as [F Q]. cbn in *. apply Nat.eqb_eq in Q. subst. auto.
  - apply in_map_iff in I as ([a b] & Q & I). cbn in Q. subst a. pose proof (find_none _ _ F _ I) as X. cbn in X. rewrite Nat.eqb_refl in X. discriminate X.
Qed.

(** C79: live G1, the original vertices that are still in G1 (P_Heavy.v) *)
Theorem C79_heavy : forall n c G ord, (0 < c)%N -> good n c G -> (forall l, Permutation (ord l) l) ->
  exists G1 ce, remove_heavy c ord G = Some (G1, ce) /\ mvalid G1 /\ atleast c (m_n G1) (wt (adj (m_rows G1))) /\ 1 <= m_n G1 /\
    (forall x, x < n -> (live G1 x <-> ~ In x (concat (map snd ce)))) /\
    forall C, rep_live n c (live G1) (mincuts_live n c (live G1) G1) C -> exists C', re_leaves c ce C = Some C' /\ rep n c (mincuts_of n c G) C'.
Proof.
  intros n c G ord Pc GD Or. destruct (scan_ok n c G GD) as [En Mk]. unfold remove_heavy. destruct (he_scan c G) as [cm mark]. cbn [fst snd] in *.
  set (cs := map _ (ord (map fst cm))).
  assert (Hcs : forall k l, In (k, l) cs -> l <> [] /\ forall y, In y l -> joined c G k y).
  { intros k l I. apply En. apply in_keys. unfold cs in I. apply in_map_iff in I as (k' & E & I). apply in_map_iff. exists k'. split; [auto|]. apply (Permutation_in _ (Or (map fst cm))). auto. }
  destruct (contract_all n c G GD ord Or cs G (fun v => v) (done_id n c G GD) Hcs) as (Gc & h & Ec & D). rewrite Ec.
  pose proof (dn_good _ _ _ _ _ D) as GC.
  assert (Lc : forall x, x < n -> live Gc x). { intros x Hx. apply (gd_range _ _ _ GC). auto. }
  assert (Ps : forall v, v < m_n G -> nth (fo G v) (m_pos Gc) 0 = h v). { intros v Hv. destruct (fo_pos n c G GD v Hv) as [A B]. rewrite (dn_pos _ _ _ _ _ D) by auto. congruence. }
  assert (MK : marked n c Gc mark).
  { rewrite Mk. split.
    - rewrite map_map. apply P_Heavy.NoDup_map_in.
      + intros u v Iu Iv E. apply filter_In in Iu as [Iu Lu], Iv as [Iv Lv]. apply in_seq in Iu, Iv. rewrite !Ps in E by lia. apply (dn_leaf _ _ _ _ _ D); auto; lia.
      + apply NoDup_filter, seq_NoDup.
    - intros x I. apply in_map_iff in I as (v & <- & I). apply filter_In in I as [I L]. apply in_seq in I. destruct (fo_pos n c G GD v ltac:(lia)) as [A B]. split; [auto|]. split; [auto|]. rewrite Ps by lia. apply (done_lone n c G GD); auto. lia. }
  destruct (leaves_ok n c Pc mark Gc [] (good_lv n c Gc GC) MK) as (G2 & ce & E2 & L2 & LV & RE). exists G2, ce. rewrite app_nil_l in E2. rewrite E2. split; [reflexivity|].
  split; [apply (lv_valid _ _ _ L2)|]. split; [apply (lv_low _ _ _ L2)|]. split; [apply (lv_some _ _ _ L2)|]. split.
  - intros x Hx. rewrite (LV x Hx). pose proof (Lc x Hx). tauto.
  - intros C RC. destruct (RE C RC) as (C' & E & R'). exists C'. split; [auto|]. apply live_rep. eapply live_iff; [| |exact R']; [intros x Hx; cbv beta; pose proof (Lc x Hx); tauto|].
    intro Y. cbv beta. rewrite <- (dn_cuts _ _ _ _ _ D Y). split; intros (S & A & B & Q); exists S; (split; [auto|]); (split; [auto|]); intros x Hx; auto.
Qed.
Print Assumptions C79_heavy.

(** ** A concrete case: the triangle 0, 1, 2 with a heavy edge 0 - 1 of weight 3, vertex 3 a leaf at 0, minimum cut 2 *)
Definition he4 : mg := match fold_opt (fun M e => m_new_edge M (fst (fst e)) (snd (fst e)) (snd e)) [(0, 1, 3%N); (0, 2, 1%N); (1, 2, 1%N); (0, 3, 2%N)] (start_construction 4) with Some M => m_finish M | None => start_construction 4 end.
Lemma he4_valid : mvalid he4.
Proof.
  assert (K : forall es M, mvalid M -> m_n M = 4 -> forallb (fun e : nat * nat * N => (fst (fst e) <? snd (fst e)) && (snd (fst e) <? 4)) es = true ->
     match fold_opt (fun M (e : nat * nat * N) => m_new_edge M (fst (fst e)) (snd (fst e)) (snd e)) es M with Some M' => mvalid M' | None => True end).
  { induction es as [|[[a b] w] es IH]; intros M V N H; cbn [fold_opt]; [auto|]. cbn [forallb fst snd] in H. apply andb_true_iff in H. destruct H as [H1 H2]. apply andb_true_iff in H1. destruct H1 as [H0 H1]. apply Nat.ltb_lt in H0, H1.
    cbn [fst snd]. destruct (new_edge_ok M a b w V H0 ltac:(lia)) as (M' & E & V' & N' & _). rewrite E. apply IH; auto. congruence. }
  pose proof (K [(0, 1, 3%N); (0, 2, 1%N); (1, 2, 1%N); (0, 3, 2%N)] (start_construction 4)) as H. unfold he4. destruct (fold_opt _ [(0, 1, 3%N); (0, 2, 1%N); (1, 2, 1%N); (0, 3, 2%N)] (start_construction 4)) as [M|] eqn:E; [|vm_compute in E; discriminate E].
  assert (Q : mvalid M) by (apply H; [apply (start_cut 4)|apply (start_cut 4)|vm_compute; reflexivity]). exact Q.
Qed.
Lemma he4_good : good 4 2 he4.
Proof.
  apply fresh_good; try (vm_compute; reflexivity).
  - apply he4_valid.
  - intros p Hp. destruct p as [|[|[|[|p]]]]; try lia; vm_compute; reflexivity.
  - intro v. destruct v as [|[|[|[|v]]]]; [| | | |change (nth (S (S (S (S v)))) (m_rows he4) []) with (nth v (@nil (list half)) []); destruct v; constructor];
      (vm_compute; repeat (constructor; [intros Q; cbn in Q; intuition congruence|]); constructor).
  - intros v t w r I. assert (A : forallb (fun row => forallb (fun h : half => negb (snd (fst h) =? 0)%N) row) (m_rows he4) = true) by (vm_compute; reflexivity).
    rewrite forallb_forall in A. destruct (Nat.lt_ge_cases v (length (m_rows he4))) as [L|L]; [|rewrite nth_overflow in I by auto; destruct I].
    specialize (A _ (nth_In _ [] L)). rewrite forallb_forall in A. specialize (A _ I). cbn [fst snd] in A. apply negb_true_iff, N.eqb_neq in A. exact A.
  - destruct (mincut_rows he4 2) as [_ B]; [apply (mincut_check (adj (m_rows he4)) 2 [false; false; false; true]); vm_compute; reflexivity|]. intros S P. apply B. exact P.
  - lia.
Qed.
(** the reduced graph has the vertices {0,1} and {2}; the leaf 3 is recorded with its neighbour 0 *)
Example c79_reduced : match remove_heavy 2 (fun l => l) he4 with
  Some (G1, ce) => Some (m_n G1, firstn (m_n G1) (m_cont G1), map (map (fun h : half => (fst (fst h), snd (fst h)))) (m_rows G1), ce) | None => None end =
  Some (2, [[0; 1]; [2]], [[(1, 2%N)]; [(0, 2%N)]], [(0, [3])]).
Proof. vm_compute. reflexivity. Qed.
(** the cactus of the reduced graph is the reduced graph; with the leaf put back it has three vertices *)
Definition he4_cactus : mg := match remove_heavy 2 (fun l => l) he4 with
  Some (G1, _) => mk_mg (m_rows G1) (m_deg G1) (m_part G1) (m_cut G1) (m_pos G1) (firstn (m_n G1) (m_cont G1)) (m_last G1) (m_ne G1) (m_pc G1) (m_orig G1) | None => he4 end.
Example c79_case : exists G1 ce C', remove_heavy 2 (fun l => l) he4 = Some (G1, ce) /\ rep_live 4 2 (live G1) (mincuts_live 4 2 (live G1) G1) he4_cactus /\
  re_leaves 2 ce he4_cactus = Some C' /\ rep 4 2 (mincuts_of 4 2 he4) C' /\ m_cont C' = [[0; 1]; [2]; [3]] /\ map (map (fun h : half => (fst (fst h), snd (fst h)))) (m_rows C') = [[(1, 2%N); (2, 2%N)]; [(0, 2%N)]; [(0, 2%N)]].
Proof.
  destruct (C79_heavy 4 2 he4 (fun l => l) ltac:(reflexivity) he4_good (fun l => Permutation_refl l)) as (G1 & ce & E & V & Lo & _ & _ & RE).
  exists G1, ce. unfold he4_cactus in *. pose proof E as E0. rewrite E. vm_compute in E0. injection E0 as EG Ece.
  set (C := mk_mg _ _ _ _ _ _ _ _ _ _).
  assert (RC : rep_live 4 2 (live G1) (mincuts_live 4 2 (live G1) G1) C).
  { assert (GL : good_live 4 2 (live G1) C).
    { clear E RE. subst G1. constructor.
      - exact V.
      - reflexivity.
      - reflexivity.
      - reflexivity.
      - intros x Hx L. exact L.
      - intros p x Hp. unfold live, C, m_n in *. cbn in *. destruct p as [|[|p]]; [| |lia]; cbn.
        + split; [intros [<-|[<-|[]]]; cbn; auto with arith|]. intros (Hx & _ & Q). destruct x as [|[|[|[|x]]]]; cbn in Q; try lia; auto.
        + split; [intros [<-|[]]; cbn; auto with arith|]. intros (Hx & _ & Q). destruct x as [|[|[|[|x]]]]; cbn in Q; try lia; auto.
      - split; [reflexivity|split; reflexivity].
      - intros p Hp. unfold C, m_n in *. cbn in *. destruct p as [|[|p]]; cbn; try lia; discriminate.
      - unfold C. cbn [m_rows]. intro v. destruct v as [|[|v]]; [| |destruct v; constructor]; (cbn; repeat (constructor; [intros Q; cbn in Q; intuition congruence|]); constructor).
      - unfold C. cbn [m_rows]. intros v t w r I. destruct v as [|[|v]]; [destruct I as [I|[]]; injection I as <- <- <-; discriminate|destruct I as [I|[]]; injection I as <- <- <-; discriminate|destruct v; destruct I].
      - exact Lo.
      - cbn. lia. }
    destruct (rec_live_ok 4 2 (live G1) 0 C ltac:(reflexivity) GL) as (M & p' & EM & RM); [unfold C; rewrite <- EG; vm_compute; auto|].
    assert (EC : rec_live 4 2 0 C = Some (C, 0)) by (unfold C; rewrite <- EG; vm_compute; reflexivity). rewrite EC in EM. injection EM as <- _. exact RM. }
  destruct (RE C RC) as (C' & Er & R). exists C'. split; [reflexivity|]. split; [exact RC|]. split; [exact Er|]. split; [exact R|].
  unfold C in Er. rewrite <- EG, <- Ece in Er. vm_compute in Er. injection Er as <-. split; reflexivity.
Qed.
