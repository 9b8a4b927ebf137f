(* Prop_Bnb.v - properties C69 and C70: the branch-and-bound loop of the multiterminal cut solver. *)
From Coq Require Import Permutation.
From Verif Require Import SpecFlow P_Cut P_Mutable P_MutableIO P_Multi P_Kernel P_KernelC P_Kernel3 P_Kernel4 P_Kernel5 P_Iso P_MultiCheck P_Branch P_Branch2 P_Branch3 P_IsoFlow P_IsoFlow2 P_IsoFlow3 P_IsoFlow4 Prop_Mutable Prop_Kernel Prop_Branch M_Bnb P_Bnb P_Bnb2 P_Bnb3.

(** the original graph with the terminals origs *)
Definition instance (G0 : mg) (origs : list nat) : Prop :=
  kstate G0 [] origs origs /\ m_pos G0 = seq 0 (m_n G0) /\ 0 < length origs.

Lemma where_id G0 x : m_pos G0 = seq 0 (m_n G0) -> x < m_n G0 -> where_is G0 [] x = x.
Proof. intros P H. unfold where_is. cbn [mapped]. rewrite P. apply seq_nth. exact H. Qed.
Lemma linked_id G0 origs : m_pos G0 = seq 0 (m_n G0) -> linked_to G0 G0 [] origs 0.
Proof.
  intro P. split.
  - intros x Hx. exists x. cbn [mapped]. rewrite P, seq_length, seq_nth by auto. auto.
  - intros f _. rewrite (mtcost_ext (m_n G0) _ (fun x => f (where_is G0 [] x)) f); [lia|]. intros v Hv. rewrite where_id; auto.
Qed.

(** ** after the first isolating flow *)
Theorem start_ok G0 origs e st q main opt : instance G0 origs -> env_ok G0 origs e -> bnb_start e origs G0 = Some (st, q, main) -> mtopt (m_n G0) (wtm G0) origs opt ->
  rinv G0 origs (b_gub st) opt (st, q, main) /\ log_ok G0 origs st.
Proof.
  intros (K & PO & PT) (ON & OP & PK & LS) E MO. unfold bnb_start in E. destruct (set_terminals G0 [] origs 0) as [ts|] eqn:ST; [|discriminate E].
  destruct (isolating_flow _ _ _ _ _ _ _ _ _ _) as [[[[G1 ts1] up] lo]|] eqn:EI; [|discriminate E].
  destruct (isolating_flow_pos (e_pick e) (e_gl e) true (e_ord e) [] origs G0 origs (all_inv ts) 0 OP PK K PT (all_inv_flags _ _ _)) as (F & HF).
  destruct (HF (Nat.max F (e_fuel e)) ltac:(lia)) as (G1' & ts1' & up' & lo' & T1 & E1 & K1 & _ & OPT & LOW & SEP & UPB & _ & g & TG & LP & PS & RG & CG).
  rewrite (iso_mono _ _ _ _ _ _ _ _ _ _ _ _ EI (Nat.le_max_r _ _)) in E1. injection E1 as <- <- <- <-. clear HF.
  assert (LI : linked_to G0 G1 [] T1 (0 + 0)).
  { apply linked_lifts with (G := G0) (T := origs); [apply linked_id, PO|]. exists g. split; [exact LP|]. split; [exact PS|]. split; [exact RG|]. intros f Ff.
    split; [rewrite TG in Ff; apply separates_map with (n' := m_n G1); auto|]. rewrite <- CG. lia. }
  rewrite N.add_0_r in LI.
  destruct (get_solution_ok G0 origs G1 [] T1 0 (map fst ts1) up lo K1 (ks_lt _ _ _ _ K) LI SEP) as (sol & ES & IS & CS). rewrite ES in E. injection E as <- <- <-.
  split; [|intros ? ? []]. cbn [rinv b_gub is_some]. set (P := mk_prob G1 (map fst ts1) [] up lo 0) in *.
  assert (PV : pvalid G0 origs P T1) by (split; [exact K1|exact LI]).
  split; [split; [split; [reflexivity|]; split; [reflexivity|]|]|split; [|split]].
  - intro k. exact (nth_repeat None (S (length origs)) k).
  - intros k b Q. exfalso. pose proof (nth_repeat (@None N) (S (length origs)) k) as X. cbn [b_ls] in Q. unfold repeat in X at 1. fold (repeat (@None N)) in X. congruence.
  - intros sol' Q. injection Q as <-. split; [exact IS|]. etransitivity; [exact CS|exact UPB].
  - constructor; [|constructor]. exists T1. split; [exact PV|]. intros c (c' & [[f [Ff <-]] _] & ->). cbn [P p_lo p_del]. apply LOW, Ff.
  - right. right. exists P, T1, opt. split; [left; reflexivity|]. split; [exact PV|]. split; [|apply N.le_refl]. exists opt. split; [apply OPT, MO|reflexivity].
Qed.

(** ** C70: when queue and main thread are done, the recorded solution is optimal.  Missing for the full claim:
    solutions reported without a new flow must be solutions (log_ok, see C69) *)
Theorem C70_branch_and_bound_partial : forall G0 origs e k0 s ms st, instance G0 origs -> env_ok G0 origs e -> bnb_start e origs G0 = Some s ->
  moves_ok G0 origs k0 s ms -> bnb_run G0 origs k0 s ms = Some (st, [], None) -> log_ok G0 origs st ->
  exists sol, b_best st = Some sol /\ length sol = m_n G0 /\ separates (m_n G0) origs (fun v => nth v sol 0) /\
    mtcost (m_n G0) (wtm G0) (fun v => nth v sol 0) = b_gub st /\ mtopt (m_n G0) (wtm G0) origs (b_gub st).
Proof.
  intros G0 origs e k0 s ms st IN EO ES MO ER LG. pose proof IN as (K & PO & PT).
  destruct (kstate_sep _ _ _ _ K PT) as [f0 F0]. destruct (opt_exists (m_n G0) (wtm G0) origs (ks_lt _ _ _ _ K) (ex_intro _ f0 F0)) as [opt MOPT].
  destruct s as [[st0 q0] main0]. destruct (start_ok G0 origs e st0 q0 main0 opt IN EO ES MOPT) as [RI _].
  pose proof (run_ok G0 origs (ks_valid _ _ _ _ K) (ks_lt _ _ _ _ K) PT (b_gub st0) opt k0 ms _ _ RI MO ER LG) as (B & _ & _ & CV). cbn [is_some] in *.
  destruct CV as [[H1 H2]|[[H _]|(P & T & c & [] & _)]]; [|discriminate H].
  destruct B as [B _]. destruct (b_best st) as [sol|]; [|congruence]. destruct B as [[L S] C]. exists sol. split; [reflexivity|]. split; [exact L|]. split; [exact S|].
  unfold scost in C. pose proof (proj2 MOPT _ S) as X. assert (Q : b_gub st = opt) by lia. split; [lia|]. rewrite Q. exact MOPT.
Qed.
Print Assumptions C70_branch_and_bound_partial.

(** at every moment of a run a recorded solution is a solution and costs no more than the bound used for pruning *)
Theorem C70_anytime_partial : forall G0 origs e k0 s ms st q main, instance G0 origs -> env_ok G0 origs e -> bnb_start e origs G0 = Some s ->
  moves_ok G0 origs k0 s ms -> bnb_run G0 origs k0 s ms = Some (st, q, main) -> log_ok G0 origs st ->
  (forall sol, b_best st = Some sol -> separates (m_n G0) origs (fun v => nth v sol 0) /\ (mtcost (m_n G0) (wtm G0) (fun v => nth v sol 0%nat) <= b_gub st)%N) /\
  (b_best st = None -> exists sol, main = Some sol /\ separates (m_n G0) origs (fun v => nth v sol 0) /\ (mtcost (m_n G0) (wtm G0) (fun v => nth v sol 0%nat) <= b_gub st)%N).
Proof.
  intros G0 origs e k0 s ms st q main IN EO ES MO ER LG. pose proof IN as (K & PO & PT).
  destruct (kstate_sep _ _ _ _ K PT) as [f0 F0]. destruct (opt_exists (m_n G0) (wtm G0) origs (ks_lt _ _ _ _ K) (ex_intro _ f0 F0)) as [opt MOPT].
  destruct s as [[st0 q0] main0]. destruct (start_ok G0 origs e st0 q0 main0 opt IN EO ES MOPT) as [RI _].
  pose proof (run_ok G0 origs (ks_valid _ _ _ _ K) (ks_lt _ _ _ _ K) PT (b_gub st0) opt k0 ms _ _ RI MO ER LG) as ([B _] & MS & _ & _). split.
  - intros sol Q. rewrite Q in B. destruct B as [[L S] C]. split; [exact S|exact C].
  - intro Q. rewrite Q in B. destruct B as (GB & PE & _). destruct main as [sol|]; [|discriminate PE]. exists sol. split; [reflexivity|]. destruct (MS sol eq_refl) as [[L S] C]. rewrite GB. split; [exact S|exact C].
Qed.
Print Assumptions C70_anytime_partial.

(** ** C69: after a new flow the partition indices are a solution within the upper bound *)
Theorem C69_new_flow_partial : forall G0 origs e P T, instance G0 origs -> env_ok G0 origs e -> pvalid G0 origs P T ->
  set_terminals (p_g P) (p_maps P) origs 0 = Some (p_ts P) ->
  (forall G' up lo, length (p_ts P) = 2 ->
     st_flow (e_fuel e) (e_pick e 0) (e_gl e 0) (p_maps P) origs (p_g P) (all_inv (p_ts P)) (p_del P) = Some (G', up) ->
     exists sol v, get_solution (m_n G0) (length origs) (mk_prob G' (p_ts P) (p_maps P) up lo (p_del P)) = Some sol /\
       flow_value G0 origs sol = Some v /\ (v <= up)%N) /\
  (forall G1 ts1 up lo G2 ts2 del2,
     isolating_flow (e_fuel e) (e_pick e) (e_gl e) (e_par e) (e_ord e) (p_maps P) origs (p_g P) (all_inv (p_ts P)) (p_del P) = Some (G1, ts1, up, lo) ->
     finish_terms (p_maps P) origs G1 (p_del P) = Some (G2, ts2, del2) ->
     exists sol v, get_solution (m_n G0) (length origs) (mk_prob G2 ts2 (p_maps P) up lo del2) = Some sol /\
       flow_value G0 origs sol = Some v /\ (v <= up)%N /\ (m_ne G2 = 0%N -> (v <= del2)%N)).
Proof.
  intros G0 origs e P T (K0 & P0 & PT0) (ON & OP & PK & LS) [K LK] ST.
  assert (PT : 0 < length T) by (rewrite (proj1 (ks_pos _ _ _ _ K)); exact PT0). split.
  - intros G' up lo L2 EF.
    destruct (st_flow_ok (e_pick e 0) (e_gl e 0) (p_maps P) origs (p_g P) T [] (all_inv (p_ts P)) (p_del P) (PK 0) K (all_inv_terms _ _ _ _ ST)) as (F & HF); [unfold all_inv; rewrite map_length; exact L2|].
    destruct (HF (Nat.max F (e_fuel e)) ltac:(lia)) as (G1 & up1 & E1 & K1 & RW & SEP & UP & _). rewrite (st_mono _ _ _ _ _ _ _ _ _ _ EF (Nat.le_max_r _ _)) in E1. injection E1 as <- <-.
    assert (PS : m_pos G' = m_pos (p_g P)) by (clear - EF; unfold st_flow in EF; destruct (solve_max_flow _ _ _ _ _ _) as [[? ?]|]; [|discriminate EF];
      destruct (all_inv (p_ts P)) as [|? [|? ?]]; try discriminate EF; destruct (part_terms _ _ _ _ _); [|discriminate EF]; injection EF as <- _; reflexivity).
    assert (NN : m_n G' = m_n (p_g P)) by (unfold m_n; rewrite RW; reflexivity).
    assert (LI : linked_to G0 G' (p_maps P) T (p_del P)).
    { rewrite <- (N.add_0_r (p_del P)). apply linked_lifts with (G := p_g P) (T := T); [exact LK|]. apply lifts_same; auto. intros f _. rewrite RW. lia. }
    rewrite <- NN in SEP. destruct (get_solution_ok G0 origs G' (p_maps P) T (p_del P) (p_ts P) up lo K1 (ks_lt _ _ _ _ K0) LI SEP) as (sol & ES & IS & CS).
    exists sol, (scost G0 sol). split; [exact ES|]. split; [apply flow_value_sol; auto; [apply (ks_valid _ _ _ _ K0)|apply (ks_lt _ _ _ _ K0)]|]. rewrite RW, NN, <- UP in CS. exact CS.
  - intros G1 ts1 up lo G2 ts2 del2 EI EF.
    destruct (isolating_flow_pos (e_pick e) (e_gl e) (e_par e) (e_ord e) (p_maps P) origs (p_g P) T (all_inv (p_ts P)) (p_del P) OP PK K PT (all_inv_flags _ _ _)) as (F & HF).
    destruct (HF (Nat.max F (e_fuel e)) ltac:(lia)) as (G1' & ts1' & up' & lo' & T1 & E1 & K1 & _ & OPT & LOW & SEP & UPB & _ & g & TG & LP & PS & RG & CG).
    rewrite (iso_mono _ _ _ _ _ _ _ _ _ _ _ _ EI (Nat.le_max_r _ _)) in E1. injection E1 as <- <- <- <-. clear HF.
    destruct (finish_terms_full G1 (p_maps P) origs T1 (p_del P) K1) as (G2' & ts2' & w & EF' & K2 & ST2 & LV2 & N2 & NT2 & CF & PF & QF). rewrite EF in EF'. injection EF' as <- <- ->.
    assert (LI : linked_to G0 G2 (p_maps P) T1 (p_del P + w)).
    { replace (p_del P + w)%N with (p_del P + (0 + w))%N by lia. apply linked_lifts with (G := p_g P) (T := T); [exact LK|]. apply lifts_trans with (G2 := G1) (T2 := T1).
      - exists g. split; [exact LP|]. split; [exact PS|]. split; [exact RG|]. intros f Ff. split; [rewrite TG in Ff; apply separates_map with (n' := m_n G1); auto|]. rewrite <- CG. lia.
      - apply lifts_same; auto. intros f Ff. rewrite (CF f Ff). lia. }
    assert (SEP2 : separates (m_n G2) T1 (fun v => nth v (m_part G2) 0)) by (rewrite N2, QF; exact SEP).
    destruct (get_solution_ok G0 origs G2 (p_maps P) T1 (p_del P + w) ts2 up lo K2 (ks_lt _ _ _ _ K0) LI SEP2) as (sol & ES & IS & CS).
    exists sol, (scost G0 sol). split; [exact ES|]. split; [apply flow_value_sol; auto; [apply (ks_valid _ _ _ _ K0)|apply (ks_lt _ _ _ _ K0)]|]. split.
    + pose proof (CF _ SEP) as CC. rewrite N2, QF in CS. lia.
    + intro Z. rewrite (no_edges G2 (ks_valid _ _ _ _ K2) Z) in CS. lia.
Qed.
Print Assumptions C69_new_flow_partial.

(** ** concrete runs; kernelization changes nothing in them *)
Definition bb_env (on : bool) : env := mk_env 200 (fun _ _ q => hd 0 q) (fun _ _ => false) false (fun l => l) on (fun sol => Some (sol, 0%N)).
Lemma bb_env_ok G0 origs : env_ok G0 origs (bb_env true).
Proof.
  split; [reflexivity|]. split; [intro; apply Permutation_refl|]. split; [intros i k [|x q] H; [congruence|left; reflexivity]|].
  intros sol sol' d IS E. injection E as <- <-. split; [exact IS|lia].
Qed.
Definition default_prob : prob := mk_prob (mg_of 0 []) [] [] 0 0 0.
Definition first_prob (s : option bnb_state) : prob := match s with Some (_, P :: _, _) => P | _ => default_prob end.
Definition gub_of (s : option bnb_state) : N := match s with Some (st, _, _) => b_gub st | None => 0%N end.

Definition edge_checkb (G : mg) (T : list nat) : bool :=
  existsb (fun t => existsb (fun h : half => negb (isterm T (fst (fst h))) && negb (snd (fst h) =? 0)%N) (nth t (m_rows G) [])) T.
Definition posb (G : mg) (maps : list (list nat)) (origs T : list nat) : bool :=
  (length T =? length origs) && forallb (fun i => match mapped maps (nth i origs 0) with Some o' => match nth_error (m_pos G) o' with Some p => p =? nth i T 0 | None => false end | None => false end) (seq 0 (length origs)).
Definition simpleb (G : mg) : bool := forallb (fun row : list half => nodupb (map (fun h : half => fst (fst h)) row)) (m_rows G).
Lemma posb_ok G maps origs T : posb G maps origs T = true -> at_positions G maps origs T.
Proof.
  intro H. apply andb_prop in H. destruct H as [L H]. apply Nat.eqb_eq in L. split; [exact L|]. intros i o E. rewrite forallb_forall in H.
  assert (Li : i < length origs) by (apply nth_error_Some; congruence). specialize (H i ltac:(apply in_seq; lia)). rewrite (nth_error_nth _ _ 0 E) in H.
  destruct (mapped maps o) as [o'|]; [|discriminate H]. exists o'. split; [reflexivity|]. destruct (nth_error (m_pos G) o') as [p|]; [|discriminate H]. apply Nat.eqb_eq in H. congruence.
Qed.
Lemma simpleb_ok G : simpleb G = true -> simple_rows G.
Proof.
  intros H v. destruct (Nat.lt_ge_cases v (length (m_rows G))) as [L|L]; [|rewrite nth_overflow by exact L; constructor]. unfold simpleb in H. rewrite forallb_forall in H. apply nodupb_ok. apply (H _ (nth_In _ [] L)).
Qed.
Lemma kernel_id G0 origs gub P T : psound G0 origs P -> posb (p_g P) (p_maps P) origs T = true -> simpleb (p_g P) = true -> edge_checkb (p_g P) T = true -> kernel_of G0 origs gub P P.
Proof.
  intros (T1 & PV & _) PB SB EB. assert (Q : T1 = T) by (eapply at_positions_fun; [apply (ks_pos _ _ _ _ (proj1 PV))|apply posb_ok, PB]). rewrite Q in PV.
  exists T. split; [exact PV|]. split; [apply simpleb_ok, SB|]. split.
  - intros T2 c PV2 VC _. replace T with T2; [exists c; split; [exact VC|lia]|]. eapply at_positions_fun; [apply (ks_pos _ _ _ _ (proj1 PV2))|apply (ks_pos _ _ _ _ (proj1 PV))].
  - intros _. unfold edge_checkb in EB. apply existsb_exists in EB. destruct EB as (t & It & EB). apply existsb_exists in EB. destruct EB as (h & Ih & EB). apply andb_prop in EB. destruct EB as [E1 E2].
    exists t, h. split; [exact It|]. split; [exact Ih|]. split.
    + intro I. apply isterm_In in I. rewrite I in E1. discriminate E1.
    + intro Z. rewrite Z in E2. discriminate E2.
Qed.

(* brg of C35: two problems are solved, the last one reports old partition indices that happen to be right *)
Definition bb_start : option bnb_state := bnb_start (bb_env true) [0; 1; 2] brg.
Definition bb_work (P : prob) : move := Work 0 P (fun _ => bb_env true) (fun l => l).
Definition bb_P1 : prob := first_prob bb_start.
Definition bb_P2 : prob := first_prob (match bb_start with Some s => bnb_step brg [0; 1; 2] 3 s (bb_work bb_P1) | None => None end).
Definition bb_moves : list move := [bb_work bb_P1; bb_work bb_P2; Main (bb_env true)].
Definition bb_run : option bnb_state := match bb_start with Some s => bnb_run brg [0; 1; 2] 3 s bb_moves | None => None end.

Lemma bb_instance : instance brg [0; 1; 2].
Proof. split; [apply brg_state|]. split; [vm_compute; reflexivity|cbn; lia]. Qed.
Lemma bb_opt : mtopt 7 (wtm brg) [0; 1; 2] 13.
Proof. apply (opt_check_ok 7 (wtm brg) [0; 1; 2] 13%N [0; 1; 2; 0; 2; 0; 0]). vm_compute. reflexivity. Qed.

Example c70_run : option_map (fun s => (N.to_nat (b_gub (fst (fst s))), b_best (fst (fst s)), length (snd (fst s)), b_log (fst (fst s)))) bb_run =
  Some (13, Some [0; 1; 2; 0; 2; 0; 0], 0, [([0; 1; 2; 0; 1; 0; 0], 13%N)]).
Proof. vm_compute. reflexivity. Qed.

Lemma one_step G0 origs opt e s m k0 st q main s' : instance G0 origs -> env_ok G0 origs e -> bnb_start e origs G0 = Some (st, q, main) -> mtopt (m_n G0) (wtm G0) origs opt ->
  s = (st, q, main) -> move_ok G0 origs s m -> bnb_step G0 origs k0 s m = Some s' -> b_log (fst (fst s')) = [] -> Forall (psound G0 origs) (snd (fst s')).
Proof.
  intros IN EO ES MO -> M E LG. destruct (start_ok G0 origs e st q main opt IN EO ES MO) as [RI _]. pose proof IN as (K & _ & PT).
  pose proof (step_ok G0 origs (ks_valid _ _ _ _ K) (ks_lt _ _ _ _ K) PT (b_gub st) opt k0 _ m s' RI M E) as X.
  destruct s' as [[st' q'] main']. cbn [fst snd] in *. assert (LO : log_ok G0 origs st') by (intros sol d I; rewrite LG in I; destruct I). destruct (X LO) as (_ & _ & PS & _). exact PS.
Qed.

Lemma start_sound G0 origs e s : instance G0 origs -> env_ok G0 origs e -> bnb_start e origs G0 = Some s -> Forall (psound G0 origs) (snd (fst s)).
Proof.
  intros IN EO ES. pose proof IN as (K & _ & PT). destruct (kstate_sep _ _ _ _ K PT) as [f0 F0]. destruct (opt_exists (m_n G0) (wtm G0) origs (ks_lt _ _ _ _ K) (ex_intro _ f0 F0)) as [opt MOPT].
  destruct s as [[st q] main]. destruct (start_ok G0 origs e st q main opt IN EO ES MOPT) as [(_ & _ & PS & _) _]. exact PS.
Qed.

Definition some_or (o : option bnb_state) : bnb_state := match o with Some s => s | None => (mk_bst 0 [] [] None [], [], None) end.
Lemma first_kernel G0 origs s T P : instance G0 origs -> bnb_start (bb_env true) origs G0 = Some s -> snd (fst s) = [P] ->
  posb (p_g P) (p_maps P) origs T = true -> simpleb (p_g P) = true -> edge_checkb (p_g P) T = true ->
  move_ok G0 origs s (bb_work P) /\ kernel_of G0 origs (b_gub (fst (fst s))) P P.
Proof.
  intros IN ES Q A B C. pose proof (start_sound _ _ _ _ IN (bb_env_ok _ _) ES) as PS. rewrite Q in PS. inversion PS as [|? ? PS1 _]. subst.
  assert (KO : forall g, kernel_of G0 origs g P P) by (intro g; apply (kernel_id G0 origs g P T); auto).
  split; [|apply KO]. split; [intro; apply bb_env_ok|]. split; [intro; apply Permutation_refl|]. intros P' E _. rewrite Q in E. injection E as <-. apply KO.
Qed.

Lemma two_steps G0 origs opt k0 s0 s1 P1 P2 T1 T2 : instance G0 origs -> bnb_start (bb_env true) origs G0 = Some s0 -> mtopt (m_n G0) (wtm G0) origs opt -> snd (fst s0) = [P1] ->
  posb (p_g P1) (p_maps P1) origs T1 = true -> simpleb (p_g P1) = true -> edge_checkb (p_g P1) T1 = true ->
  bnb_step G0 origs k0 s0 (bb_work P1) = Some s1 -> b_log (fst (fst s1)) = [] -> snd (fst s1) = [P2] ->
  posb (p_g P2) (p_maps P2) origs T2 = true -> simpleb (p_g P2) = true -> edge_checkb (p_g P2) T2 = true ->
  moves_ok G0 origs k0 s0 [bb_work P1; bb_work P2; Main (bb_env true)].
Proof.
  intros IN ES MO Q1 A1 A2 A3 E1 L1 Q2 B1 B2 B3. destruct (first_kernel G0 origs s0 T1 P1 IN ES Q1 A1 A2 A3) as [M1 _].
  cbn [moves_ok]. split; [exact M1|]. rewrite E1. destruct s0 as [[st q] main].
  pose proof (one_step G0 origs opt (bb_env true) _ (bb_work P1) k0 st q main _ IN (bb_env_ok _ _) ES MO eq_refl M1 E1 L1) as PS. rewrite Q2 in PS. apply Forall_inv in PS. split.
  - split; [intro; apply bb_env_ok|]. split; [intro; apply Permutation_refl|]. intros P' E _. rewrite Q2 in E. injection E as <-. apply (kernel_id G0 origs _ P2 T2 PS); assumption.
  - destruct (bnb_step G0 origs k0 s1 (bb_work P2)) as [s2|]; [|exact I]. split; [exact (proj2 (proj2 (proj2 (bb_env_ok G0 origs))))|]. destruct (bnb_step G0 origs k0 s2 _); exact I.
Qed.

Definition solb (G0 : mg) (origs sol : list nat) : bool := (length sol =? m_n G0) && forallb (fun b => b <? length origs) sol && sepb origs sol.
Lemma solb_ok G0 origs sol : 0 < length origs -> solb G0 origs sol = true -> is_sol G0 origs sol.
Proof.
  intros PT H. apply andb_prop in H. destruct H as [H H3]. apply andb_prop in H. destruct H as [H1 H2]. apply Nat.eqb_eq in H1. split; [exact H1|]. split.
  - intros v Hv. rewrite forallb_forall in H2. apply Nat.ltb_lt, H2, nth_In. lia.
  - intros i Hi. unfold sepb in H3. rewrite forallb_forall in H3. apply Nat.eqb_eq, H3, in_seq. lia.
Qed.
Lemma log_okb G0 origs st : 0 < length origs -> forallb (fun x => solb G0 origs (fst x) && (scost G0 (fst x) <=? snd x)%N) (b_log st) = true -> log_ok G0 origs st.
Proof.
  intros PT H sol d I. rewrite forallb_forall in H. specialize (H _ I). apply andb_prop in H. destruct H as [A B]. cbn [fst snd] in *. split; [apply solb_ok; auto|apply N.leb_le, B].
Qed.

(* the assumptions of C70 hold for this run *)
Example c70_assumptions : instance brg [0; 1; 2] /\ env_ok brg [0; 1; 2] (bb_env true) /\ bb_start = Some (some_or bb_start) /\ moves_ok brg [0; 1; 2] 3 (some_or bb_start) bb_moves /\
  log_ok brg [0; 1; 2] (fst (fst (some_or bb_run))) /\ bb_run = Some (fst (fst (some_or bb_run)), [], None) /\ mtopt 7 (wtm brg) [0; 1; 2] 13.
Proof.
  split; [exact bb_instance|]. split; [exact (bb_env_ok _ _)|]. split; [vm_compute; reflexivity|]. split; [|split; [|split; [vm_compute; reflexivity|exact bb_opt]]].
  - apply (two_steps brg [0; 1; 2] 13 3 (some_or bb_start) (some_or (bnb_step brg [0; 1; 2] 3 (some_or bb_start) (bb_work bb_P1))) bb_P1 bb_P2 [0; 1; 2] [0; 1; 2] bb_instance).
    2: exact bb_opt. all: vm_compute; reflexivity.
  - apply log_okb; [cbn; lia|vm_compute; reflexivity].
Qed.

(* the last problem of this run: its terminals are found, and both parts of C69 apply to it *)
Example c69_new_flow : psound brg [0; 1; 2] bb_P1 /\ set_terminals (p_g bb_P1) (p_maps bb_P1) [0; 1; 2] 0 = Some (p_ts bb_P1) /\
  match isolating_flow 200 (e_pick (bb_env true)) (e_gl (bb_env true)) false (fun l => l) (p_maps bb_P1) [0; 1; 2] (p_g bb_P1) (all_inv (p_ts bb_P1)) (p_del bb_P1) with
  | Some (G1, _, up, lo) => match finish_terms (p_maps bb_P1) [0; 1; 2] G1 (p_del bb_P1) with
      | Some (G2, ts2, del2) => option_map (fun sol => (sol, option_map N.to_nat (flow_value brg [0; 1; 2] sol), N.to_nat up)) (get_solution 7 3 (mk_prob G2 ts2 (p_maps bb_P1) up lo del2))
      | None => None end
  | None => None end = Some ([0; 1; 2; 0; 0; 0; 0], Some 14, 14).
Proof.
  split; [|split; vm_compute; reflexivity]. assert (ES : bnb_start (bb_env true) [0; 1; 2] brg = Some (some_or bb_start)) by (vm_compute; reflexivity).
  pose proof (start_sound brg [0; 1; 2] (bb_env true) _ bb_instance (bb_env_ok _ _) ES) as PS. assert (Q : snd (fst (some_or bb_start)) = [bb_P1]) by (vm_compute; reflexivity). rewrite Q in PS. exact (Forall_inv PS).
Qed.

(** ** C69, the whole claim: what is reported without a new flow is a solution too *)
Definition C69_statement : Prop := forall G0 origs e k0 s ms st q main i P K srt G1 ts1 del1 cs G' ts' w,
  instance G0 origs -> env_ok G0 origs e -> bnb_start e origs G0 = Some s -> moves_ok G0 origs k0 s ms -> bnb_run G0 origs k0 s ms = Some (st, q, main) ->
  nth_error q i = Some P -> (p_lo P < b_gub st)%N -> kernel_of G0 origs (b_gub st) P K -> (forall l, Permutation (srt l) l) ->
  finish_terms (p_maps K) origs (p_g K) (p_del K) = Some (G1, ts1, del1) -> multi_branch srt (p_maps K) origs G1 (map fst ts1) = Some cs -> In (G', ts', w) cs -> length ts' < 2 ->
  exists sol v, get_solution (m_n G0) (length origs) (mk_prob G' ts' (p_maps K) (p_up K) (p_lo K) (del1 + w)) = Some sol /\ flow_value G0 origs sol = Some v.

(* a star with centre 0 and the edge 2-3: the flow of terminal 3 is contracted in the child where 0 belongs to 1; the
   merged vertex keeps the index of 0 *)
Definition old_ops : list mop := [NewOrder 1 0 2; NewOrder 2 0 2; NewOrder 3 0 2; NewOrder 2 3 1].
Definition oldg : mg := mg_of 4 old_ops.
Definition old_start : option bnb_state := bnb_start (bb_env true) [1; 2; 3] oldg.
Definition old_P : prob := first_prob old_start.
Definition old_children : list (mg * list (nat * nat) * N) :=
  match finish_terms (p_maps old_P) [1; 2; 3] (p_g old_P) (p_del old_P) with
  | Some (G1, ts1, _) => match multi_branch (fun l => l) (p_maps old_P) [1; 2; 3] G1 (map fst ts1) with Some cs => cs | None => [] end
  | None => []
  end.
Lemma old_instance : instance oldg [1; 2; 3].
Proof. destruct (mg_of_valid 4 old_ops eq_refl) as [A [B C]]. split; [apply kstate_of; [exact A|exact C|reflexivity]|]. split; [vm_compute; reflexivity|cbn; lia]. Qed.
Definition old_child : mg * list (nat * nat) * N := nth 0 old_children (mg_of 0 [], [], 0%N).
Example old_run : option_map (fun s => (N.to_nat (b_gub (fst (fst s))), snd s)) old_start = Some (5, Some [1; 0; 1; 2]) /\ length old_children = 3 /\ N.to_nat (p_lo old_P) = 4 /\
  snd (fst old_child) = [] /\ get_solution 4 3 (mk_prob (fst (fst old_child)) [] [] 5 4 5) = Some [1; 1; 1; 2] /\ flow_value oldg [1; 2; 3] [1; 1; 1; 2] = None.
Proof. repeat split; vm_compute; reflexivity. Qed.

Theorem C69_old_partition_refuted : ~ C69_statement.
Proof.
  intro H. assert (ES : bnb_start (bb_env true) [1; 2; 3] oldg = Some (some_or old_start)) by (vm_compute; reflexivity).
  destruct (first_kernel oldg [1; 2; 3] (some_or old_start) [1; 2; 3] old_P old_instance ES ltac:(vm_compute; reflexivity) ltac:(vm_compute; reflexivity) ltac:(vm_compute; reflexivity) ltac:(vm_compute; reflexivity)) as [_ KO].
  destruct (finish_terms (p_maps old_P) [1; 2; 3] (p_g old_P) (p_del old_P)) as [[[G1 ts1] del1]|] eqn:E1; [|vm_compute in E1; discriminate E1].
  destruct (multi_branch (fun l => l) (p_maps old_P) [1; 2; 3] G1 (map fst ts1)) as [cs|] eqn:E2; [|exfalso; vm_compute in E1; injection E1 as <- <- <-; vm_compute in E2; discriminate E2].
  assert (CS : cs = old_children) by (unfold old_children; rewrite E1, E2; reflexivity).
  destruct old_run as (_ & LC & _ & TS & GS & FV).
  assert (IC : In old_child cs) by (rewrite CS; apply nth_In; rewrite LC; apply Nat.lt_0_succ).
  destruct old_child as [[G' ts'] w]. cbn [fst snd] in TS, GS.
  destruct (some_or old_start) as [[st q] main] eqn:Q0.
  assert (QP : nth_error q 0 = Some old_P) by (change q with (snd (fst (st, q, main))); rewrite <- Q0; vm_compute; reflexivity).
  assert (LP : (p_lo old_P < b_gub st)%N) by (change st with (fst (fst (st, q, main))); rewrite <- Q0; vm_compute; reflexivity).
  destruct (H oldg [1; 2; 3] (bb_env true) 3 (st, q, main) [] st q main 0 old_P old_P (fun l => l) G1 ts1 del1 cs G' ts' w old_instance (bb_env_ok _ _) ES I eq_refl QP LP KO (fun l => Permutation_refl l) E1 E2 IC) as (sol & v & S1 & S2).
  - rewrite TS. apply Nat.lt_0_succ.
  - assert (EM : p_maps old_P = []) by (vm_compute; reflexivity). rewrite EM in S1.
    assert (Z : get_solution (m_n oldg) (length [1; 2; 3]) (mk_prob G' ts' [] (p_up old_P) (p_lo old_P) (del1 + w)) = get_solution 4 3 (mk_prob G' [] [] 5 4 5)) by reflexivity.
    rewrite Z, GS in S1. injection S1 as <-. rewrite FV in S2. discriminate S2.
Qed.
Print Assumptions C69_old_partition_refuted.

(** ** C70, the whole claim: without the assumption on old partition indices *)
Definition C70_statement : Prop := forall G0 origs e k0 s ms st, instance G0 origs -> env_ok G0 origs e -> bnb_start e origs G0 = Some s ->
  moves_ok G0 origs k0 s ms -> bnb_run G0 origs k0 s ms = Some (st, [], None) -> mtopt (m_n G0) (wtm G0) origs (b_gub st).

(* vertex 4 hangs on vertex 5; the child in which 5 belongs to terminal 0 is optimal but reports 4 and 5 apart *)
Definition lost_ops : list mop := [NewOrder 0 5 3; NewOrder 1 3 2; NewOrder 1 5 2; NewOrder 2 3 3; NewOrder 2 5 2; NewOrder 4 5 3].
Definition lostg : mg := mg_of 6 lost_ops.
Definition lost_start (on : bool) : option bnb_state := bnb_start (bb_env on) [0; 1; 2] lostg.
Definition lost_P : prob := first_prob (lost_start true).
Definition lost_moves (on : bool) : list move := [Work 0 lost_P (fun _ => bb_env on) (fun l => l); Main (bb_env on)].
Definition lost_run (on : bool) : option bnb_state := bnb_run lostg [0; 1; 2] 3 (some_or (lost_start on)) (lost_moves on).
Lemma lost_instance : instance lostg [0; 1; 2].
Proof. destruct (mg_of_valid 6 lost_ops eq_refl) as [A [B C]]. split; [apply kstate_of; [exact A|exact C|reflexivity]|]. split; [vm_compute; reflexivity|cbn; lia]. Qed.
Lemma lost_opt : mtopt 6 (wtm lostg) [0; 1; 2] 6.
Proof. apply (opt_check_ok 6 (wtm lostg) [0; 1; 2] 6%N [0; 1; 2; 2; 0; 0]). vm_compute. reflexivity. Qed.
Example lost_show : (forall on, option_map (fun s => (N.to_nat (b_gub (fst (fst s))), b_best (fst (fst s)), length (snd (fst s)), snd s)) (lost_run on) = Some (7, Some [0; 1; 2; 2; 1; 1], 0, None)) /\
  option_map (fun s => b_log (fst (fst s))) (lost_run true) = Some [([0; 1; 2; 2; 1; 1], 7%N); ([0; 1; 2; 2; 1; 0], 6%N)] /\ option_map (fun s => b_log (fst (fst s))) (lost_run false) = Some [].
Proof. split; [intros [|]; vm_compute; reflexivity|split; vm_compute; reflexivity]. Qed.

Lemma lost_kernel : kernel_of lostg [0; 1; 2] (b_gub (fst (fst (some_or (lost_start true))))) lost_P lost_P /\ move_ok lostg [0; 1; 2] (some_or (lost_start true)) (bb_work lost_P).
Proof.
  assert (ES : bnb_start (bb_env true) [0; 1; 2] lostg = Some (some_or (lost_start true))) by (vm_compute; reflexivity).
  destruct (first_kernel lostg [0; 1; 2] (some_or (lost_start true)) [0; 1; 2] lost_P lost_instance ES ltac:(vm_compute; reflexivity) ltac:(vm_compute; reflexivity) ltac:(vm_compute; reflexivity) ltac:(vm_compute; reflexivity)). auto.
Qed.

Theorem C70_old_partition_refuted : ~ C70_statement.
Proof.
  intro H. assert (ES : bnb_start (bb_env true) [0; 1; 2] lostg = Some (some_or (lost_start true))) by (vm_compute; reflexivity).
  assert (MO : moves_ok lostg [0; 1; 2] 3 (some_or (lost_start true)) (lost_moves true)).
  { split; [exact (proj2 lost_kernel)|]. destruct (bnb_step _ _ _ _ _) as [s2|]; [|exact I]. split; [exact (proj2 (proj2 (proj2 (bb_env_ok lostg [0; 1; 2]))))|]. destruct (bnb_step lostg [0; 1; 2] 3 s2 _); exact I. }
  assert (ER : bnb_run lostg [0; 1; 2] 3 (some_or (lost_start true)) (lost_moves true) = Some (fst (fst (some_or (lost_run true))), [], None)) by (vm_compute; reflexivity).
  pose proof (H lostg [0; 1; 2] (bb_env true) 3 (some_or (lost_start true)) (lost_moves true) (fst (fst (some_or (lost_run true)))) lost_instance (bb_env_ok _ _) ES MO ER) as X.
  assert (GB : b_gub (fst (fst (some_or (lost_run true)))) = 7%N) by (vm_compute; reflexivity). rewrite GB in X.
  pose proof (mtopt_unique _ _ _ _ _ X lost_opt) as Y. discriminate Y.
Qed.
Print Assumptions C70_old_partition_refuted.

(** with configuration::runLocalSearch switched off the solutions of two-terminal and edge-free problems are dropped *)
Theorem C70_no_local_search_refuted : exists G0 origs e P ms st, instance G0 origs /\ e = bb_env false /\ (forall l, Permutation (e_ord e l) l) /\ ls_ok G0 origs (e_ls e) /\
  exists s, bnb_start e origs G0 = Some s /\ nth_error (snd (fst s)) 0 = Some P /\ kernel_of G0 origs (b_gub (fst (fst s))) P P /\
    ms = [Work 0 P (fun _ => e) (fun l => l); Main e] /\ bnb_run G0 origs (length origs) s ms = Some (st, [], None) /\ b_log st = [] /\ ~ mtopt (m_n G0) (wtm G0) origs (b_gub st).
Proof.
  exists lostg, [0; 1; 2], (bb_env false), lost_P, (lost_moves false), (fst (fst (some_or (lost_run false)))).
  split; [exact lost_instance|]. split; [reflexivity|]. split; [intro; apply Permutation_refl|]. split; [exact (proj2 (proj2 (proj2 (bb_env_ok lostg [0; 1; 2]))))|].
  exists (some_or (lost_start false)). split; [vm_compute; reflexivity|]. split; [vm_compute; reflexivity|].
  split; [assert (Z : lost_start false = lost_start true) by (vm_compute; reflexivity); rewrite Z; exact (proj1 lost_kernel)|].
  split; [reflexivity|]. split; [vm_compute; reflexivity|]. split; [vm_compute; reflexivity|].
  intro X. assert (GB : b_gub (fst (fst (some_or (lost_run false)))) = 7%N) by (vm_compute; reflexivity). rewrite GB in X.
  pose proof (mtopt_unique _ _ _ _ _ X lost_opt) as Y. discriminate Y.
Qed.
Print Assumptions C70_no_local_search_refuted.
