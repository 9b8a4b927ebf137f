(* P_Bnb3.v - branch and bound: findBestSolution, processNewProblem, solveProblem and runs. *)
From Coq Require Import Permutation.
From Verif Require Import SpecFlow P_Cut P_Mutable P_Multi P_Kernel P_KernelC P_Kernel3 P_Kernel4 P_Kernel5 P_Iso P_Branch P_Branch2 P_Branch3 P_IsoFlow P_IsoFlow2 P_IsoFlow3 P_IsoFlow4 P_MultiCheck Prop_Kernel Prop_Branch M_Bnb P_Bnb P_Bnb2.

(** ** a graph without edges *)
Lemma no_edges_rows G : mvalid G -> m_ne G = 0%N -> forall v, nth v (m_rows G) [] = [].
Proof.
  intros (_ & _ & C) E v. red in C. rewrite E in C. symmetry in C. destruct (Nat.lt_ge_cases v (length (m_rows G))) as [L|L]; [|apply nth_overflow, L].
  assert (X : (N.of_nat (length (nth v (m_rows G) [])) <= 0)%N).
  { rewrite <- C. generalize (nth_In (m_rows G) [] L). generalize (nth v (m_rows G) []). generalize (m_rows G). induction l as [|r l IH]; intros x []; cbn [sumN]; [subst; lia|]. specialize (IH x H). lia. }
  destruct (nth v (m_rows G) []); [auto|cbn in X; lia].
Qed.
Lemma no_edges G : mvalid G -> m_ne G = 0%N -> forall f, mtcost (m_n G) (wt (adj (m_rows G))) f = 0%N.
Proof.
  intros V E f. pose proof (no_edges_rows G V E) as Z. unfold mtcost. apply bsum_zero. intros u Hu. apply bsum_zero. intros v Hv.
  rewrite (row_nil_wt (m_rows G) u v (proj1 V) (or_introl (Z u))). destruct (_ && _); reflexivity.
Qed.

Section Bnb.
Context (G0 : mg) (origs : list nat).
Let n0 := m_n G0.
Let W0 := wt (adj (m_rows G0)).

(** problem P, whose terminals are at the positions T, is a valid reduction of the original instance *)
Definition pvalid (P : prob) (T : list nat) : Prop :=
  kstate (p_g P) (p_maps P) origs T /\ linked_to G0 (p_g P) (p_maps P) T (p_del P).
(** c is the value of P: weight deleted so far plus optimum *)
Definition pvalue (P : prob) (T : list nat) (c : N) : Prop :=
  exists c', mtopt (m_n (p_g P)) (wt (adj (m_rows (p_g P)))) T c' /\ c = (p_del P + c')%N.
Definition psound (P : prob) : Prop := exists T, pvalid P T /\ forall c, pvalue P T c -> (p_lo P <= c)%N.

(** what simplify, setTerminals and kernelization have to ensure when the best known value is gub *)
Definition kernel_of (gub : N) (P K : prob) : Prop :=
  exists T', pvalid K T' /\ simple_rows (p_g K) /\
    (forall T c, pvalid P T -> pvalue P T c -> (c < gub)%N -> exists c', pvalue K T' c' /\ (c' <= c)%N) /\
    ((exists v h, In h (nth v (m_rows (p_g K)) []) /\ ~ (In v T' /\ In (fst (fst h)) T')) ->
     exists t h, In t T' /\ In h (nth t (m_rows (p_g K)) []) /\ ~ In (fst (fst h)) T' /\ snd (fst h) <> 0%N).

(** what improveSolution ensures (C65) *)
Definition ls_ok (ls : list nat -> option (list nat * N)) : Prop :=
  forall sol sol' d, is_sol G0 origs sol -> ls sol = Some (sol', d) -> is_sol G0 origs sol' /\ (scost G0 sol' + d <= scost G0 sol)%N.
Definition env_ok (e : env) : Prop := e_on e = true /\
  (forall l, Permutation (e_ord e l) l) /\ (forall i k q, q <> [] -> In (e_pick e i k q) q) /\ ls_ok (e_ls e).
(** the solutions reported without a new flow are solutions no more expensive than the weight deleted so far *)
Definition log_ok (st : bst) : Prop := forall sol d, In (sol, d) (b_log st) -> is_sol G0 origs sol /\ (scost G0 sol <= d)%N.

Context (V0 : mvalid G0) (LO : forall t, In t origs -> t < n0) (PO : 0 < length origs) (up0 : N).

Definition binv (st : bst) (pend : bool) : Prop :=
  match b_best st with
  | Some s => is_sol G0 origs s /\ (scost G0 s <= b_gub st)%N
  | None => b_gub st = up0 /\ pend = true /\ forall k, nth k (b_ls st) None = None
  end /\
  forall k b, nth k (b_ls st) None = Some b -> (b_gub st <= b)%N.
Definition bmono (st st' : bst) : Prop :=
  (b_best st <> None -> b_best st' <> None /\ (b_gub st' <= b_gub st)%N) /\ (b_best st = None -> b_best st' = None -> b_gub st' = b_gub st) /\ exists l, b_log st' = l ++ b_log st.
Definition covered (st : bst) (pend : bool) (q : list prob) (c : N) : Prop :=
  (b_best st <> None /\ (b_gub st <= c)%N) \/ (pend = true /\ (up0 <= c)%N) \/ exists P T c', In P q /\ pvalid P T /\ pvalue P T c' /\ (c' <= c)%N.

Lemma bmono_refl st : bmono st st.
Proof. split; [intro; split; [auto|lia]|]. split; [auto|]. exists []. reflexivity. Qed.
Lemma bmono_trans a b c : bmono a b -> bmono b c -> bmono a c.
Proof.
  intros (A1 & A2 & l & A3) (B1 & B2 & l' & B3). split; [|split].
  - intro H. destruct (A1 H) as [X Y]. destruct (B1 X) as [X' Y']. split; [auto|lia].
  - intros H H'. destruct (b_best b) eqn:Q; [exfalso; destruct (B1 ltac:(discriminate)); congruence|]. rewrite B2, A2; auto.
  - exists (l' ++ l). rewrite B3, A3. apply app_assoc.
Qed.
Lemma log_back a b : bmono a b -> log_ok b -> log_ok a.
Proof. intros (_ & _ & l & E) H sol d I. apply H. rewrite E. apply in_or_app. right. exact I. Qed.

Lemma nth_upd_opt (l : list (option N)) k x j b : nth j (upd l k (Some x)) None = Some b -> (j = k /\ b = x) \/ nth j l None = Some b.
Proof.
  intro H. destruct (Nat.eq_dec j k) as [->|Q]; [|rewrite nth_upd_neq in H by auto; auto].
  destruct (Nat.lt_ge_cases k (length l)) as [L|L]; [rewrite nth_upd_eq in H by auto; injection H as <-; auto|rewrite upd_out in H by auto; auto].
Qed.

(** ** findBestSolution *)
Theorem find_best_ok ls st pend pend' sol k st' : ls_ok ls -> binv st pend -> is_sol G0 origs sol -> find_best ls G0 origs st sol k = Some st' ->
  binv st' pend' /\ bmono st st' /\ b_best st' <> None /\ (b_gub st' <= scost G0 sol)%N /\ b_log st' = b_log st.
Proof.
  intros LS [B1 B2] IS E. unfold find_best in E. rewrite (flow_value_sol G0 origs sol V0 LO IS) in E. set (v := scost G0 sol) in *.
  destruct (le_inf v (nth k (b_ls st) None)) eqn:GT; cbn [negb] in E.
  2:{ injection E as <-. destruct (nth k (b_ls st) None) as [b|] eqn:Q; [|discriminate GT]. cbn in GT. apply N.leb_gt in GT. pose proof (B2 k b Q) as GB.
      destruct (b_best st) as [s|] eqn:BS; [|destruct B1 as (_ & _ & Z); rewrite Z in Q; discriminate Q].
      split; [split; [rewrite BS; exact B1|exact B2]|]. split; [apply bmono_refl|]. split; [congruence|]. split; [lia|reflexivity]. }
  destruct (ls sol) as [[sol' imp]|] eqn:EL; [|destruct (v <? b_gub st)%N; discriminate E].
  destruct (LS sol sol' imp IS EL) as [IS' LE]. fold v in LE.
  set (g1 := if (v <? b_gub st)%N then v else b_gub st). set (s1 := if (v <? b_gub st)%N then Some sol else b_best st).
  replace (if (v <? b_gub st)%N then (v, Some sol) else (b_gub st, b_best st)) with (g1, s1) in E by (unfold g1, s1; destruct (v <? b_gub st)%N; reflexivity).
  assert (H1 : (g1 <= v)%N) by (unfold g1; destruct (N.ltb_spec v (b_gub st)); lia).
  assert (H2 : (g1 <= b_gub st)%N) by (unfold g1; destruct (N.ltb_spec v (b_gub st)); lia).
  assert (H3 : forall s, s1 = Some s -> is_sol G0 origs s /\ (scost G0 s <= g1)%N).
  { unfold g1, s1. intros s Q. destruct (v <? b_gub st)%N; [injection Q as <-; split; [exact IS|apply N.le_refl]|]. rewrite Q in B1. exact B1. }
  assert (H4 : b_best st <> None -> s1 <> None) by (unfold s1; destruct (v <? b_gub st)%N; [discriminate|auto]).
  cbn beta iota in E. destruct (if le_inf (v - imp) (nth k (b_tg st) None) then _ else _) as [tg2 ls2] eqn:T2.
  assert (H5 : forall j b, nth j ls2 None = Some b -> (j = k /\ b = v) \/ nth j (b_ls st) None = Some b).
  { intros j b Q. destruct (le_inf _ (nth k (b_tg st) None)); injection T2 as _ <-; [apply nth_upd_opt, Q|auto]. }
  clearbody g1 s1 v.
  assert (FIN : forall g best, b_best st = None \/ (g <= b_gub st)%N -> (g <= v)%N -> is_sol G0 origs best /\ (scost G0 best <= g)%N ->
    binv (mk_bst g tg2 ls2 (Some best) (b_log st)) pend' /\ bmono st (mk_bst g tg2 ls2 (Some best) (b_log st))).
  { intros g best Q1 Q2 Q3. split; [split; [exact Q3|]|].
    - cbn [b_ls b_gub]. intros j b Q. destruct (H5 j b Q) as [[_ ->]|Q']; [exact Q2|]. destruct Q1 as [Q1|Q1]; [rewrite Q1 in B1; destruct B1 as (_ & _ & Z); rewrite Z in Q'; discriminate Q'|].
      specialize (B2 j b Q'). lia.
    - split; [intro X; split; [discriminate|]; destruct Q1 as [Q1|Q1]; [contradiction|exact Q1]|]. split; [discriminate|]. exists []. reflexivity. }
  destruct ((v - imp <? g1)%N || match s1 with None => true | Some _ => false end) eqn:C; injection E as <-.
  - destruct (FIN (v - imp)%N sol') as [F1 F2].
    + destruct (b_best st) as [s|] eqn:BS; [right|left; auto]. apply orb_prop in C. destruct C as [C|C]; [apply N.ltb_lt in C; lia|]. destruct s1; [discriminate C|]. exfalso. apply H4; congruence.
    + lia.
    + split; [exact IS'|lia].
    + split; [exact F1|]. split; [exact F2|]. split; [discriminate|]. split; [cbn; lia|reflexivity].
  - apply orb_false_elim in C. destruct C as [C1 C2]. destruct s1 as [s|]; [|discriminate C2].
    destruct (FIN g1 s (or_intror H2) H1 (H3 s eq_refl)) as [F1 F2].
    split; [exact F1|]. split; [exact F2|]. split; [discriminate|]. split; [exact H1|reflexivity].
Qed.

(** ** what stays covered *)
Lemma covered_mono st st' pend q q' c : binv st pend -> bmono st st' -> (forall P, In P q -> In P q') -> covered st pend q c -> covered st' pend q' c.
Proof.
  intros _ (M1 & M2 & _) Q [[H1 H2]|[H|(P & T & c' & H1 & H2)]].
  - left. destruct (M1 H1) as [X Y]. split; [auto|lia].
  - right. left. exact H.
  - right. right. exists P, T, c'. split; [auto|exact H2].
Qed.
Lemma pvalid_fun P T T' : pvalid P T -> pvalid P T' -> T = T'.
Proof. intros [A _] [B _]. eapply at_positions_fun; [apply (ks_pos _ _ _ _ A)|apply (ks_pos _ _ _ _ B)]. Qed.
Lemma pvalue_fun P T c c' : pvalue P T c -> pvalue P T c' -> c = c'.
Proof. intros (a & A & ->) (b & B & ->). f_equal. eapply mtopt_unique; eauto. Qed.
Lemma pvalue_ex P T : pvalid P T -> exists c, pvalue P T c.
Proof.
  intros [K _]. destruct (kstate_sep _ _ _ _ K) as [f F]; [rewrite (proj1 (ks_pos _ _ _ _ K)); exact PO|].
  destruct (opt_exists (m_n (p_g P)) (wt (adj (m_rows (p_g P)))) T (ks_lt _ _ _ _ K) (ex_intro _ f F)) as [c C]. exists (p_del P + c)%N, c. auto.
Qed.

(** a problem may be dropped when its value is no better than gub *)
Lemma covered_drop st pend P T q c : binv st pend -> pvalid P T -> (forall c', pvalue P T c' -> (b_gub st <= c')%N) -> covered st pend (P :: q) c -> covered st pend q c.
Proof.
  intros [B _] PV D [H|[H|(P' & T' & c' & [<-|I] & H2 & H3 & H4)]]; [left; exact H|right; left; exact H| |right; right; eauto 8].
  rewrite (pvalid_fun P T' T H2 PV) in *. specialize (D c' H3). destruct (b_best st) as [s|] eqn:Q.
  - left. rewrite Q. split; [discriminate|lia].
  - right. left. destruct B as (B1 & B2 & _). split; [exact B2|lia].
Qed.
(** ... or replaced by a problem of no greater value *)
Lemma covered_replace st pend P T P' T' q c : pvalid P T -> pvalid P' T' -> (forall c', pvalue P T c' -> exists c'', pvalue P' T' c'' /\ (c'' <= c')%N) ->
  covered st pend (P :: q) c -> covered st pend (P' :: q) c.
Proof.
  intros PV PV' D [H|[H|(P1 & T1 & c1 & [<-|I] & H2 & H3 & H4)]]; [left; exact H|right; left; exact H| |].
  - right. right. rewrite (pvalid_fun P T1 T H2 PV) in *. destruct (D c1 H3) as (c2 & V2 & L2). exists P', T', c2. split; [left; auto|]. split; [auto|]. split; [auto|lia].
  - right. right. exists P1, T1, c1. split; [right; auto|]. auto.
Qed.

(** ** processNewProblem *)
Lemma no_edges_value P T c : pvalid P T -> m_ne (p_g P) = 0%N -> pvalue P T c -> c = p_del P.
Proof. intros [K _] E (c' & [[f [_ <-]] _] & ->). rewrite (no_edges _ (ks_valid _ _ _ _ K) E). lia. Qed.
Lemma value_del P T c : pvalue P T c -> (p_del P <= c)%N.
Proof. intros (c' & _ & ->). lia. Qed.

Lemma report_old_ok e st pend P T k st' : env_ok e -> binv st pend -> pvalid P T -> report_old e G0 origs st P k = Some st' -> log_ok st' ->
  binv st' pend /\ bmono st st' /\ (forall c, pvalue P T c -> (b_gub st' <= c)%N).
Proof.
  intros (_ & _ & _ & LS) B PV E LG. unfold report_old in E. destruct (get_solution _ _ P) as [sol|] eqn:GS; [|discriminate E].
  set (st1 := mk_bst (b_gub st) (b_tg st) (b_ls st) (b_best st) ((sol, p_del P) :: b_log st)) in *.
  assert (B1 : binv st1 pend) by exact B.
  assert (LOG : b_log st' = b_log st1).
  { unfold find_best in E. destruct (flow_value G0 origs sol); [|discriminate E]. destruct (negb _); [injection E as <-; reflexivity|].
    destruct (if (_ <? _)%N then _ else _). destruct (e_ls e sol) as [[? ?]|]; [|discriminate E]. destruct (if le_inf _ _ then _ else _). destruct (_ || _); injection E as <-; reflexivity. }
  destruct (LG sol (p_del P)) as [IS CL]; [rewrite LOG; left; reflexivity|].
  destruct (find_best_ok _ st1 pend pend sol k st' LS B1 IS E) as (F1 & F2 & _ & F4 & _). split; [exact F1|]. split.
  - eapply bmono_trans; [|exact F2]. split; [intro; split; [auto|apply N.le_refl]|]. split; [auto|]. exists [(sol, p_del P)]. reflexivity.
  - intros c VC. apply value_del in VC. lia.
Qed.

Lemma report_ok e st pend P T k st' : env_ok e -> binv st pend -> pvalid P T -> separates (m_n (p_g P)) T (fun v => nth v (m_part (p_g P)) 0) ->
  report e G0 origs st P k = Some st' ->
  binv st' pend /\ bmono st st' /\ (b_gub st' <= p_del P + mtcost (m_n (p_g P)) (wt (adj (m_rows (p_g P)))) (fun v => nth v (m_part (p_g P)) 0%nat))%N.
Proof.
  intros (_ & _ & _ & LS) B [K LK] SEP E. unfold report in E. destruct P as [G ts maps up lo del]. cbn [p_g p_ts p_maps p_up p_lo p_del] in *.
  destruct (get_solution_ok G0 origs G maps T del ts up lo K LO LK SEP) as (sol & ES & IS & CS). unfold n0 in *. rewrite ES in E.
  destruct (find_best_ok _ st pend pend sol k st' LS B IS E) as (F1 & F2 & _ & F4 & _). split; [exact F1|]. split; [exact F2|]. lia.
Qed.

Lemma gate_closed st pend P : binv st pend -> run_ls true st P = false -> (b_gub st <= p_up P)%N.
Proof.
  intros [_ B] R. unfold run_ls in R. rewrite andb_true_r in R. destruct (nth (length (p_ts P)) (b_ls st) None) as [b|] eqn:Q; [|discriminate R]. cbn in R. apply N.ltb_ge in R. specialize (B _ _ Q). lia.
Qed.

Theorem process_new_ok e st pend P T st' q' : env_ok e -> binv st pend -> pvalid P T -> set_terminals (p_g P) (p_maps P) origs 0 = Some (p_ts P) ->
  process_new e G0 origs st P = Some (st', q') -> log_ok st' ->
  binv st' pend /\ bmono st st' /\ Forall psound q' /\ (forall q c, covered st pend (P :: q) c -> covered st' pend (q' ++ q) c).
Proof.
  intros EO B PV ST E LG. pose proof EO as (ON & OP & PK & LS). pose proof PV as [K LK].
  assert (PT : 0 < length T) by (rewrite (proj1 (ks_pos _ _ _ _ K)); exact PO).
  assert (SAME : st' = st -> (forall c, pvalue P T c -> (b_gub st <= c)%N) -> binv st' pend /\ bmono st st' /\ Forall psound [] /\ (forall q c, covered st pend (P :: q) c -> covered st' pend ([] ++ q) c)).
  { intros -> D. split; [exact B|]. split; [apply bmono_refl|]. split; [constructor|]. intros q c. apply covered_drop with (T := T); auto. }
  assert (DROP : forall r, binv r pend -> bmono st r -> (forall c, pvalue P T c -> (b_gub r <= c)%N) -> binv r pend /\ bmono st r /\ Forall psound [] /\ (forall q c, covered st pend (P :: q) c -> covered r pend ([] ++ q) c)).
  { intros r Br Mr D. split; [exact Br|]. split; [exact Mr|]. split; [constructor|]. intros q c CV. apply covered_drop with (P := P) (T := T); auto. apply covered_mono with (st := st) (q := P :: q); auto. }
  unfold process_new in E. rewrite !ON in E. destruct ((length (p_ts P) <? 2) && run_ls true st P).
  { destruct (report_old e G0 origs st P (length (p_ts P))) as [r|] eqn:RO; [|discriminate E]. injection E as <- <-.
    destruct (report_old_ok e st pend P T _ r EO B PV RO LG) as (R1 & R2 & R3). apply DROP; auto. }
  destruct (Nat.eqb_spec (length (p_ts P)) 2) as [L2|_].
  { destruct (st_flow _ _ _ _ _ _ _ _) as [[G' up]|] eqn:EF; [|discriminate E].
    destruct (st_flow_ok (e_pick e 0) (e_gl e 0) (p_maps P) origs (p_g P) T [] (all_inv (p_ts P)) (p_del P) (PK 0) K (all_inv_terms _ _ _ _ ST)) as (F & HF); [unfold all_inv; rewrite map_length; exact L2|].
    destruct (HF (Nat.max F (e_fuel e)) ltac:(lia)) as (G1 & up1 & E1 & K1 & RW & SEP & UP & OPT). rewrite (st_mono _ _ _ _ _ _ _ _ _ _ EF (Nat.le_max_r _ _)) in E1. injection E1 as <- <-.
    set (P' := mk_prob G' (p_ts P) (p_maps P) up (p_lo P) (p_del P)) in *.
    assert (PS : m_pos G' = m_pos (p_g P)) by (clear - EF; unfold st_flow in EF; destruct (solve_max_flow _ _ _ _ _ _) as [[? ?]|]; [|discriminate EF];
      destruct (all_inv (p_ts P)) as [|? [|? ?]]; try discriminate EF; destruct (part_terms _ _ _ _ _); [|discriminate EF]; injection EF as <- _; reflexivity).
    assert (NN : m_n G' = m_n (p_g P)) by (unfold m_n; rewrite RW; reflexivity).
    assert (PV' : pvalid P' T).
    { split; [exact K1|]. cbn [P' p_g p_maps p_del]. rewrite <- (N.add_0_r (p_del P)). apply linked_lifts with (G := p_g P) (T := T); [exact LK|]. apply lifts_same; auto. intros f _. rewrite RW. lia. }
    assert (VAL : forall c, pvalue P T c -> c = up).
    { intros c (c' & M & ->). rewrite (mtopt_unique _ _ _ _ _ M OPT), UP. reflexivity. }
    destruct (run_ls true st P') eqn:RL.
    - destruct (report e G0 origs st P' (length (p_ts P))) as [r|] eqn:RP; [|discriminate E]. injection E as <- <-.
      destruct (report_ok e st pend P' T (length (p_ts P)) r EO B PV') as (R1 & R2 & R3); [cbn [P' p_g]; rewrite NN; exact SEP|exact RP|].
      cbn [P' p_g p_del] in R3. rewrite NN, RW, <- UP in R3. apply DROP; auto. intros c VC. rewrite (VAL c VC). exact R3.
    - injection E as <- <-. pose proof (gate_closed st pend P' B RL) as GC. cbn [P' p_up] in GC. apply SAME; auto. intros c VC. rewrite (VAL c VC). exact GC. }
  destruct (isolating_flow _ _ _ _ _ _ _ _ _ _) as [[[[G1 ts1] up] lo]|] eqn:EI; [|discriminate E].
  destruct (isolating_flow_pos (e_pick e) (e_gl e) (e_par e) (e_ord e) (p_maps P) origs (p_g P) T (all_inv (p_ts P)) (p_del P) OP PK K PT (all_inv_flags _ _ _)) as (F & HF).
  destruct (HF (Nat.max F (e_fuel e)) ltac:(lia)) as (G1' & ts1' & up' & lo' & T1 & E1 & K1 & _ & OPT & LOW & SEP & UPB & _ & g & TG & LP & PS & RG & CG).
  rewrite (iso_mono _ _ _ _ _ _ _ _ _ _ _ _ EI (Nat.le_max_r _ _)) in E1. injection E1 as <- <- <- <-. clear HF.
  destruct (finish_terms_full G1 (p_maps P) origs T1 (p_del P) K1) as (G2 & ts2 & w & EF & K2 & ST2 & LV2 & N2 & NT2 & CF & PF & QF). rewrite EF in E.
  assert (LI : linked_to G0 G2 (p_maps P) T1 (p_del P + w)).
  { replace (p_del P + w)%N with (p_del P + (0 + w))%N by lia. apply linked_lifts with (G := p_g P) (T := T); [exact LK|]. apply lifts_trans with (G2 := G1) (T2 := T1).
    - exists g. split; [exact LP|]. split; [exact PS|]. split; [exact RG|]. intros f Ff. split; [rewrite TG in Ff; apply separates_map with (n' := m_n G1); auto|]. rewrite <- CG. lia.
    - apply lifts_same; auto. intros f Ff. rewrite (CF f Ff). lia. }
  assert (SEP2 : separates (m_n G2) T1 (fun v => nth v (m_part G2) 0)) by (rewrite N2, QF; exact SEP).
  (* the value of P is the value after contraction and deletion *)
  assert (VAL : forall c, pvalue P T c -> exists c2, mtopt (m_n G2) (wt (adj (m_rows G2))) T1 c2 /\ c = (p_del P + w + c2)%N).
  { intros c (c' & M & ->). apply OPT in M. apply (mtopt_shift _ _ _ _ _ CF) in M. destruct M as (c2 & M & ->). rewrite N2. exists c2. split; [exact M|lia]. }
  assert (LOW2 : forall c2, mtopt (m_n G2) (wt (adj (m_rows G2))) T1 c2 -> (lo <= p_del P + w + c2)%N).
  { intros c2 [[f [Ff <-]] _]. rewrite N2 in *. specialize (LOW f Ff). rewrite <- (CF f Ff) in LOW. lia. }
  destruct (N.eqb_spec (m_ne G2) 0) as [Z|NZ].
  - set (P' := mk_prob G2 ts2 (p_maps P) (p_del P + w) lo (p_del P + w)) in *. assert (PV' : pvalid P' T1) by (split; [exact K2|exact LI]).
    pose proof (no_edges G2 (ks_valid _ _ _ _ K2) Z) as NE.
    assert (DV : forall c, pvalue P T c -> c = (p_del P + w)%N).
    { intros c VC. destruct (VAL c VC) as (c2 & [[f [_ <-]] _] & ->). rewrite NE. lia. }
    destruct (run_ls true st P') eqn:RL.
    + destruct (report e G0 origs st P' (length (p_ts P))) as [r|] eqn:RP; [|discriminate E]. injection E as <- <-.
      destruct (report_ok e st pend P' T1 (length (p_ts P)) r EO B PV' SEP2 RP) as (R1 & R2 & R3). cbn [P' p_g p_del] in R3. rewrite NE in R3. apply DROP; auto. intros c VC. rewrite (DV c VC). lia.
    + injection E as <- <-. pose proof (gate_closed st pend P' B RL) as GC. cbn [P' p_up] in GC. apply SAME; auto. intros c VC. rewrite (DV c VC). exact GC.
  - set (P' := mk_prob G2 ts2 (p_maps P) up lo (p_del P + w)) in *. assert (PV' : pvalid P' T1) by (split; [exact K2|exact LI]).
    destruct (N.ltb_spec lo (b_gub st)) as [LL|LL].
    + assert (SND : Forall psound [P']).
      { constructor; [|constructor]. exists T1. split; [exact PV'|]. intros c (c2 & M & ->). cbn [P' p_lo p_del]. apply LOW2. exact M. }
      assert (REP : forall r q c, binv r pend -> bmono st r -> covered st pend (P :: q) c -> covered r pend ([P'] ++ q) c).
      { intros r q c Br Mr CV. apply covered_mono with (st := st) (q := [P'] ++ q); auto. apply covered_replace with (P := P) (T := T) (T' := T1); auto.
        intros c' VC. destruct (VAL c' VC) as (c2 & M & ->). exists (p_del P + w + c2)%N. split; [exists c2; auto|lia]. }
      destruct (run_ls true st P') eqn:RL.
      * destruct (report e G0 origs st P' (length (p_ts P))) as [r|] eqn:RP; [|discriminate E]. injection E as <- <-.
        destruct (report_ok e st pend P' T1 (length (p_ts P)) r EO B PV' SEP2 RP) as (R1 & R2 & _). split; [exact R1|]. split; [exact R2|]. split; [exact SND|]. intros q c. apply REP; auto.
      * injection E as <- <-. split; [exact B|]. split; [apply bmono_refl|]. split; [exact SND|]. intros q c. apply REP; [exact B|apply bmono_refl].
    + injection E as <- <-. apply SAME; auto. intros c VC. destruct (VAL c VC) as (c2 & M & ->). specialize (LOW2 c2 M). lia.
Qed.

(** ** the log only grows *)
Lemma find_best_log ls st sol k st' : find_best ls G0 origs st sol k = Some st' -> b_log st' = b_log st.
Proof.
  intro E. unfold find_best in E. destruct (flow_value G0 origs sol); [|discriminate E]. destruct (negb _); [injection E as <-; reflexivity|].
  destruct (if (_ <? _)%N then _ else _). destruct (ls sol) as [[? ?]|]; [|discriminate E]. destruct (if le_inf _ _ then _ else _). destruct (_ || _); injection E as <-; reflexivity.
Qed.
Definition grows (st st' : bst) : Prop := exists l, b_log st' = l ++ b_log st.
Lemma grows_refl st : grows st st. Proof. exists []. reflexivity. Qed.
Lemma grows_trans a b c : grows a b -> grows b c -> grows a c.
Proof. intros [l A] [l' B]. exists (l' ++ l). rewrite B, A. apply app_assoc. Qed.
Lemma grows_log a b : grows a b -> log_ok b -> log_ok a.
Proof. intros (l & E) H sol d I. apply H. rewrite E. apply in_or_app. right. exact I. Qed.
Lemma report_log e st P k st' : report e G0 origs st P k = Some st' -> grows st st'.
Proof. unfold report. destruct (get_solution _ _ _); [|discriminate]. intro E. exists []. apply (find_best_log _ _ _ _ _ E). Qed.
Lemma report_old_log e st P k st' : report_old e G0 origs st P k = Some st' -> grows st st'.
Proof. unfold report_old. destruct (get_solution _ _ _) as [sol|]; [|discriminate]. intro E. exists [(sol, p_del P)]. apply (find_best_log _ _ _ _ _ E). Qed.
Lemma process_new_log e st P st' q' : process_new e G0 origs st P = Some (st', q') -> grows st st'.
Proof.
  unfold process_new. destruct ((length (p_ts P) <? 2) && run_ls (e_on e) st P).
  { destruct (report_old _ _ _ _ _ _) eqn:Q; [|discriminate]. cbn. intro E. injection E as <- _. eapply report_old_log; eauto. }
  destruct (length (p_ts P) =? 2).
  { destruct (st_flow _ _ _ _ _ _ _ _) as [[? ?]|]; [|discriminate]. destruct (run_ls _ _ _); [|intro E; injection E as <- _; apply grows_refl].
    destruct (report _ _ _ _ _ _) eqn:Q; [|discriminate]. cbn. intro E. injection E as <- _. eapply report_log; eauto. }
  destruct (isolating_flow _ _ _ _ _ _ _ _ _ _) as [[[[? ?] ?] ?]|]; [|discriminate]. destruct (finish_terms _ _ _ _) as [[[? ?] ?]|]; [|discriminate].
  destruct (_ =? _)%N.
  { destruct (run_ls _ _ _); [|intro E; injection E as <- _; apply grows_refl]. destruct (report _ _ _ _ _ _) eqn:Q; [|discriminate]. cbn. intro E. injection E as <- _. eapply report_log; eauto. }
  destruct (_ <? _)%N; [|intro E; injection E as <- _; apply grows_refl].
  destruct (run_ls _ _ _); [|intro E; injection E as <- _; apply grows_refl]. destruct (report _ _ _ _ _ _) eqn:Q; [|discriminate]. cbn. intro E. injection E as <- _. eapply report_log; eauto.
Qed.
Lemma process_all_log P : forall cs e st st' q', process_all e G0 origs st P cs = Some (st', q') -> grows st st'.
Proof.
  induction cs as [|[[G' ts'] w] cs IH]; intros e st st' q' E; cbn [process_all] in E; [injection E as <- _; apply grows_refl|].
  destruct (process_new _ _ _ _ _) as [[st1 q1]|] eqn:Q; [|discriminate E]. destruct (process_all _ _ _ _ _ _) as [[st2 q2]|] eqn:Q2; [|discriminate E]. injection E as <- _.
  eapply grows_trans; [eapply process_new_log; eauto|eapply IH; eauto].
Qed.
Lemma solve_log e srt st P K st' q' : solve_problem e srt G0 origs st P K = Some (st', q') -> grows st st'.
Proof.
  unfold solve_problem. destruct (negb _); [intro E; injection E as <- _; apply grows_refl|]. destruct (_ <? _)%N; [intro E; injection E as <- _; apply grows_refl|].
  destruct (finish_terms _ _ _ _) as [[[? ?] ?]|]; [|discriminate]. destruct (_ =? _)%N.
  - destruct (report_old _ _ _ _ _ _) eqn:Q; [|discriminate]. cbn. intro E. injection E as <- _. eapply report_old_log; eauto.
  - destruct (multi_branch _ _ _ _ _); [|discriminate]. apply process_all_log.
Qed.

(** ** the children *)
Definition child_prob (P : prob) (C : mg * list (nat * nat) * N) : prob := mk_prob (fst (fst C)) (snd (fst C)) (p_maps P) (p_up P) (p_lo P) (p_del P + snd C).

Theorem process_all_ok P pend : forall cs e st st' q', (forall i, env_ok (e i)) -> binv st pend ->
  (forall C, In C cs -> (exists T, pvalid (child_prob P C) T) /\ set_terminals (fst (fst C)) (p_maps P) origs 0 = Some (snd (fst C))) ->
  process_all e G0 origs st P cs = Some (st', q') -> log_ok st' ->
  binv st' pend /\ bmono st st' /\ Forall psound q' /\ (forall q c, covered st pend (map (child_prob P) cs ++ q) c -> covered st' pend (q' ++ q) c).
Proof.
  induction cs as [|C cs IH]; intros e st st' q' EO B HC E LG; cbn [process_all] in E.
  - injection E as <- <-. split; [exact B|]. split; [apply bmono_refl|]. split; [constructor|]. intros q c H. exact H.
  - destruct C as [[G' ts'] w]. destruct (HC _ (or_introl eq_refl)) as [[T PV] ST]. cbn [fst snd] in ST.
    destruct (process_new _ _ _ _ _) as [[st1 q1]|] eqn:Q; [|discriminate E]. destruct (process_all _ _ _ _ _ _) as [[st2 q2]|] eqn:Q2; [|discriminate E]. injection E as <- <-.
    assert (LG1 : log_ok st1) by (eapply grows_log; [eapply process_all_log; eauto|exact LG]).
    change (mk_prob G' ts' (p_maps P) (p_up P) (p_lo P) (p_del P + w)) with (child_prob P (G', ts', w)) in Q.
    destruct (process_new_ok _ st pend _ T st1 q1 (EO (length cs)) B PV ST Q LG1) as (B1 & M1 & S1 & C1).
    destruct (IH e st1 st2 q2 EO B1 (fun C I => HC C (or_intror I)) Q2 LG) as (B2 & M2 & S2 & C2).
    split; [exact B2|]. split; [eapply bmono_trans; eauto|]. split; [apply Forall_app; auto|].
    intros q c CV. cbn [map app] in CV. apply C1 in CV.
    assert (X : covered st1 pend (map (child_prob P) cs ++ q1 ++ q) c).
    { apply covered_mono with (st := st1) (q := q1 ++ map (child_prob P) cs ++ q); auto; [apply bmono_refl|]. intros R. rewrite !in_app_iff. tauto. }
    apply C2 in X. apply covered_mono with (st := st2) (q := q2 ++ q1 ++ q); auto; [apply bmono_refl|]. intros R. rewrite !in_app_iff. tauto.
Qed.

(** ** solveProblem *)
Lemma covered_kernel st pend P K q c : binv st pend -> psound P -> kernel_of (b_gub st) P K -> covered st pend (P :: q) c -> covered st pend (K :: q) c.
Proof.
  intros B (T & PV & _) (T' & PK & _ & KV & _) CV. destruct (pvalue_ex P T PV) as [v VP]. destruct (N.lt_ge_cases v (b_gub st)) as [L|L].
  - destruct (KV T v PV VP L) as (c' & VK & LE). eapply covered_replace; [exact PV|exact PK| |exact CV]. intros v' VP'. rewrite (pvalue_fun _ _ _ _ VP' VP). eauto.
  - apply covered_mono with (st := st) (q := q); auto; [apply bmono_refl|intros; right; auto|]. eapply covered_drop; [exact B|exact PV| |exact CV]. intros v' VP'. rewrite (pvalue_fun _ _ _ _ VP' VP). exact L.
Qed.

Lemma wt_row R a b : wt (adj R) a b = sumN (fun h : half => if fst (fst h) =? b then snd (fst h) else 0%N) (nth a R []).
Proof. unfold wt. rewrite adj_nth. induction (nth a R []) as [|h l IH]; [reflexivity|]. cbn [map sumN fst snd filter]. rewrite <- IH. destruct (fst (fst h) =? b); [reflexivity|]. rewrite N.add_0_l. reflexivity. Qed.
Lemma sum_has (l : list half) h b : In h l -> fst (fst h) = b -> snd (fst h) <> 0%N -> sumN (fun h : half => if fst (fst h) =? b then snd (fst h) else 0%N) l <> 0%N.
Proof.
  intros I Q NZ. induction l as [|x l IH]; [destruct I|]. cbn [sumN]. destruct I as [->|I]; [rewrite (proj2 (Nat.eqb_eq _ _) Q); lia|]. specialize (IH I). lia.
Qed.
Lemma sum_get (l : list half) b : sumN (fun h : half => if fst (fst h) =? b then snd (fst h) else 0%N) l <> 0%N -> exists h, In h l /\ fst (fst h) = b /\ snd (fst h) <> 0%N.
Proof.
  induction l as [|x l IH]; [cbn; congruence|]. cbn [sumN]. intro H. destruct (Nat.eqb_spec (fst (fst x)) b) as [Q|Q].
  - destruct (N.eq_dec (snd (fst x)) 0) as [Z|Z]; [|exists x; split; [left; auto|auto]]. destruct IH as (h & I & X); [lia|]. exists h. split; [right; auto|auto].
  - destruct IH as (h & I & X); [lia|]. exists h. split; [right; auto|auto].
Qed.
Lemma wt_has R a h : In h (nth a R []) -> snd (fst h) <> 0%N -> wt (adj R) a (fst (fst h)) <> 0%N.
Proof. rewrite wt_row. intros I NZ. eapply sum_has; eauto. Qed.
Lemma wt_get R a b : wt (adj R) a b <> 0%N -> exists h, In h (nth a R []) /\ fst (fst h) = b /\ snd (fst h) <> 0%N.
Proof. rewrite wt_row. apply sum_get. Qed.
Lemma some_edge G : mvalid G -> m_ne G <> 0%N -> exists v h, In h (nth v (m_rows G) []).
Proof.
  intros (_ & _ & C) H. red in C. rewrite C in H. clear C.
  enough (X : exists r h, In r (m_rows G) /\ In h r) by (destruct X as (r & h & I & J); apply (In_nth _ _ []) in I; destruct I as (v & _ & <-); eauto).
  induction (m_rows G) as [|r l IH]; [cbn in H; congruence|]. cbn [sumN] in H. destruct r as [|h r].
  - cbn [length] in H. destruct IH as (r' & h & I & J); [lia|]. exists r', h. split; [right; auto|auto].
  - exists (h :: r), h. split; left; auto.
Qed.

Theorem solve_ok e srt st pend P K st' q' : (forall i, env_ok (e i)) -> (forall l, Permutation (srt l) l) -> binv st pend -> psound P ->
  ((p_lo P < b_gub st)%N -> kernel_of (b_gub st) P K) -> solve_problem e srt G0 origs st P K = Some (st', q') -> log_ok st' ->
  binv st' pend /\ bmono st st' /\ Forall psound q' /\ (forall q c, covered st pend (P :: q) c -> covered st' pend (q' ++ q) c).
Proof.
  intros EO SP B PS KO E LG. unfold solve_problem in E. destruct (N.ltb_spec (p_lo P) (b_gub st)) as [LL|LL]; cbn [negb] in E.
  2:{ injection E as <- <-. split; [exact B|]. split; [apply bmono_refl|]. split; [constructor|]. intros q c. destruct PS as (T & PV & LB). apply covered_drop with (T := T); auto. intros c' VC. specialize (LB c' VC). lia. }
  specialize (KO LL). pose proof KO as (T & PK & SI & _ & ED). pose proof PK as [KS LK].
  destruct (N.ltb_spec (b_gub st) (p_del K)) as [LD|LD].
  { injection E as <- <-. split; [exact B|]. split; [apply bmono_refl|]. split; [constructor|]. intros q c CV. apply (covered_kernel _ _ _ K _ _ B PS KO) in CV.
    eapply covered_drop; [exact B|exact PK| |exact CV]. intros c' VC. apply value_del in VC. lia. }
  destruct (finish_terms_full (p_g K) (p_maps K) origs T (p_del K) KS) as (G1 & ts1 & w & EF & K1 & ST1 & LV1 & N1 & NT1 & CF & PF & _). rewrite EF in E.
  destruct (finish_terms_rest _ _ _ _ _ _ _ _ KS EF) as (SI1 & TG1 & WT1).
  assert (LI : linked_to G0 G1 (p_maps K) T (p_del K + w)).
  { apply linked_lifts with (G := p_g K) (T := T); [exact LK|]. apply lifts_same; auto. intros f Ff. rewrite (CF f Ff). lia. }
  assert (REP : forall ts up lo q c, covered st pend (P :: q) c -> covered st pend (mk_prob G1 ts (p_maps K) up lo (p_del K + w) :: q) c).
  { intros ts up lo q c CV. apply (covered_kernel _ _ _ K _ _ B PS KO) in CV. eapply covered_replace; [exact PK| | |exact CV]; [split; [exact K1|exact LI]|].
    intros v (c' & M & ->). apply (mtopt_shift _ _ _ _ _ CF) in M. destruct M as (c2 & M & ->). exists (p_del K + w + c2)%N. split; [|lia]. exists c2. cbn [p_g p_del]. rewrite N1. auto. }
  destruct (N.eqb_spec (m_ne G1) 0) as [Z|NZ].
  - destruct (report_old _ _ _ _ _ _) as [r|] eqn:RO; [|discriminate E]. injection E as <- <-.
    set (P1 := mk_prob G1 ts1 (p_maps K) (p_del K + w) (p_lo K) (p_del K + w)) in *. assert (PV1 : pvalid P1 T) by (split; [exact K1|exact LI]).
    destruct (report_old_ok (e 0) st pend P1 T _ r (EO 0) B PV1 RO LG) as (R1 & R2 & R3). split; [exact R1|]. split; [exact R2|]. split; [constructor|].
    intros q c CV. apply (REP ts1 (p_del K + w)%N (p_lo K)) in CV. fold P1 in CV. apply covered_drop with (P := P1) (T := T); auto. apply covered_mono with (st := st) (q := P1 :: q); auto.
  - destruct (multi_branch _ _ _ _ _) as [cs|] eqn:MB; [|discriminate E].
    set (P1 := mk_prob G1 ts1 (p_maps K) (p_up K) (p_lo K) (p_del K + w)) in *. assert (PV1 : pvalid P1 T) by (split; [exact K1|exact LI]).
    assert (NT : forall s h, In s T -> In h (nth s (m_rows G1) []) -> ~ In (fst (fst h)) T).
    { intros s h Hs Hh Ht. apply (NT1 s _ Hs Ht). apply tgts_In. eauto. }
    assert (HE : exists t h, In t T /\ In h (nth t (m_rows G1) []) /\ snd (fst h) <> 0%N).
    { destruct (some_edge G1 (ks_valid _ _ _ _ K1) NZ) as (v & h & Ih).
      destruct ED as (t & h' & Ht & Ih' & Nh & Wh).
      { assert (X : In (fst (fst h)) (tgts (nth v (m_rows (p_g K)) []))) by (apply TG1, tgts_In; eauto). apply tgts_In in X. destruct X as (h2 & I2 & Q2). exists v, h2. split; [exact I2|].
        rewrite Q2. intros [Hv Hh]. apply (NT v h Hv Ih Hh). }
      assert (Lt : t < m_n (p_g K)) by (apply (ks_lt _ _ _ _ KS), Ht).
      assert (Lx : fst (fst h') < m_n (p_g K)).
      { apply In_nth_error in Ih'. destruct Ih' as [b Ib]. destruct h' as [[x y] z]. destruct (proj1 (ks_valid _ _ _ _ KS) t b x y z Ib) as [X _]. exact X. }
      pose proof (wt_has _ _ _ Ih' Wh) as X. rewrite <- (WT1 t _ Lt Lx ltac:(tauto)) in X. apply wt_get in X. destruct X as (h3 & I3 & _ & W3). eauto. }
    rewrite LV1 in MB. destruct (C35_heavy_vertex_partial G1 (p_maps K) origs T srt SP K1 (SI1 SI) NT HE) as (L & EL & SUB & OPT). change (filter _ T) with (live G1 T) in EL. rewrite MB in EL. injection EL as <-.
    assert (CHILD : forall C T', In C cs -> kstate (fst (fst C)) (p_maps K) origs T' -> pvalid (child_prob P1 C) T' /\ set_terminals (fst (fst C)) (p_maps K) origs 0 = Some (snd (fst C))).
    { intros C T' I KC. destruct (multi_branch_lifts G1 (p_maps K) origs T srt cs SP K1 (SI1 SI) NT HE MB C T' I KC) as [LF ST]. split; [|exact ST]. split; [exact KC|].
      cbn [child_prob p_g p_maps p_del P1]. apply linked_lifts with (G := G1) (T := T); auto. }
    destruct (process_all_ok P1 pend cs e st st' q' EO B) as (R1 & R2 & R3 & R4).
    { intros C I. destruct (SUB C I) as [T' (KC & _)]. destruct (CHILD C T' I KC) as [X Y]. split; [exists T'; exact X|exact Y]. }
    { exact E. } { exact LG. }
    split; [exact R1|]. split; [exact R2|]. split; [exact R3|]. intros q c CV. apply R4. apply (REP ts1 (p_up K) (p_lo K)) in CV. fold P1 in CV.
    destruct CV as [H|[H|(P2 & T2 & c2 & [<-|I] & H2 & H3 & H4)]]; [left; exact H|right; left; exact H| |].
    + right. right. rewrite (pvalid_fun P1 T2 T H2 PV1) in *. destruct H3 as (c3 & M & ->). apply OPT in M. destruct M as [(C & T' & I & (KC & _) & c4 & M4 & ->) _].
      destruct (CHILD C T' I KC) as [X _]. exists (child_prob P1 C), T', (p_del P1 + snd C + c4)%N. split; [apply in_or_app; left; apply in_map; exact I|]. split; [exact X|].
      split; [|lia]. exists c4. split; [exact M4|reflexivity].
    + right. right. exists P2, T2, c2. split; [apply in_or_app; right; exact I|auto].
Qed.
End Bnb.

(** ** runs *)
Section Run.
Context (G0 : mg) (origs : list nat).
Let n0 := m_n G0.
Let W0 := wt (adj (m_rows G0)).

(** the assumptions on one move and on the moves of a run *)
Definition move_ok (s : bnb_state) (m : move) : Prop :=
  match m with
  | Main e => ls_ok G0 origs (e_ls e)
  | Work i K e srt => (forall j, env_ok G0 origs (e j)) /\ (forall l, Permutation (srt l) l) /\
      forall P, nth_error (snd (fst s)) i = Some P -> (p_lo P < b_gub (fst (fst s)))%N -> kernel_of G0 origs (b_gub (fst (fst s))) P K
  end.
Fixpoint moves_ok (k0 : nat) (s : bnb_state) (ms : list move) : Prop :=
  match ms with
  | [] => True
  | m :: ms' => move_ok s m /\ match bnb_step G0 origs k0 s m with Some s' => moves_ok k0 s' ms' | None => True end
  end.

Context (V0 : mvalid G0) (LO : forall t, In t origs -> t < n0) (PO : 0 < length origs) (up0 opt : N).
Definition is_some {A} (o : option A) : bool := match o with Some _ => true | None => false end.
Definition rinv (s : bnb_state) : Prop :=
  let '(st, q, main) := s in
  binv G0 origs up0 st (is_some main) /\ (forall sol, main = Some sol -> is_sol G0 origs sol /\ (scost G0 sol <= up0)%N) /\
  Forall (psound G0 origs) q /\ covered G0 origs up0 st (is_some main) q opt.

Lemma step_log k0 s m s' : bnb_step G0 origs k0 s m = Some s' -> grows (fst (fst s)) (fst (fst s')).
Proof.
  destruct s as [[st q] main]. destruct m as [e|i K e srt]; cbn [bnb_step fst].
  - destruct main; [|discriminate]. destruct (find_best _ _ _ _ _ _) eqn:Q; [|discriminate]. intro E. injection E as <-. exists []. apply (find_best_log _ _ _ _ _ _ _ Q).
  - destruct (nth_error q i); [|discriminate]. destruct (solve_problem _ _ _ _ _ _ _) as [[? ?]|] eqn:Q; [|discriminate]. intro E. injection E as <-. apply (solve_log _ _ _ _ _ _ _ _ _ Q).
Qed.
Lemma run_log k0 : forall ms s s', bnb_run G0 origs k0 s ms = Some s' -> grows (fst (fst s)) (fst (fst s')).
Proof.
  induction ms as [|m ms IH]; intros s s' E; cbn [bnb_run] in E; [injection E as <-; apply grows_refl|].
  destruct (bnb_step _ _ _ _ _) eqn:Q; [|discriminate E]. eapply grows_trans; [eapply step_log; eauto|eauto].
Qed.

Lemma step_ok k0 s m s' : rinv s -> move_ok s m -> bnb_step G0 origs k0 s m = Some s' -> log_ok G0 origs (fst (fst s')) -> rinv s'.
Proof.
  destruct s as [[st q] main]. intros (B & MS & PS & CV) MO E LG. destruct m as [e|i K e srt]; cbn [bnb_step] in E.
  - destruct main as [sol|]; [|discriminate E]. destruct (find_best _ _ _ _ _ _) as [st'|] eqn:Q; [|discriminate E]. injection E as <-.
    destruct (MS sol eq_refl) as [IS CS]. destruct (find_best_ok G0 origs V0 LO PO up0 _ st true false sol k0 st' MO B IS Q) as (F1 & F2 & F3 & F4 & _).
    split; [exact F1|]. split; [discriminate|]. split; [exact PS|]. destruct CV as [[H1 H2]|[[_ H]|H]].
    + left. destruct (proj1 F2 H1). split; [auto|lia].
    + left. split; [exact F3|lia].
    + right. right. exact H.
  - destruct (nth_error q i) as [P|] eqn:NI; [|discriminate E]. destruct (solve_problem _ _ _ _ _ _ _) as [[st' q']|] eqn:Q; [|discriminate E]. injection E as <-. cbn [fst snd] in *.
    destruct MO as (EO & SP & KO). cbn [fst snd] in KO. destruct (nth_error_split q i NI) as (l1 & l2 & QE & LE).
    assert (QQ : firstn i q ++ skipn (S i) q = l1 ++ l2).
    { rewrite QE, <- LE. rewrite firstn_app, Nat.sub_diag, firstn_all. cbn [firstn]. rewrite app_nil_r. f_equal. rewrite skipn_app. rewrite skipn_all2 by lia. replace (S (length l1) - length l1) with 1 by lia. reflexivity. }
    match goal with |- rinv (_, ?x, _) => replace x with (q' ++ l1 ++ l2) by (f_equal; symmetry; exact QQ) end. assert (PSP : psound G0 origs P) by (rewrite Forall_forall in PS; apply PS; rewrite QE; apply in_or_app; right; left; auto).
    destruct (solve_ok G0 origs V0 LO PO up0 e srt st (is_some main) P K st' q' EO SP B PSP (KO P NI) Q LG) as (R1 & R2 & R3 & R4).
    split; [exact R1|]. split; [exact MS|]. split; [apply Forall_app; split; [exact R3|]; rewrite QE in PS; apply Forall_app in PS; destruct PS as [A A']; inversion A'; apply Forall_app; auto|].
    apply R4. apply (covered_mono G0 origs LO PO up0 st st (is_some main) q _ opt B (bmono_refl G0 origs LO PO st)); [|exact CV]. intros R IR. rewrite QE in IR. apply in_app_or in IR. destruct IR as [IR|[->|IR]]; [right; apply in_or_app; auto|left; auto|right; apply in_or_app; auto].
Qed.

Theorem run_ok k0 : forall ms s s', rinv s -> moves_ok k0 s ms -> bnb_run G0 origs k0 s ms = Some s' -> log_ok G0 origs (fst (fst s')) -> rinv s'.
Proof.
  induction ms as [|m ms IH]; intros s s' I MO E LG; cbn [bnb_run] in E; [injection E as <-; exact I|].
  destruct MO as [M1 M2]. destruct (bnb_step _ _ _ _ _) as [s1|] eqn:Q; [|discriminate E].
  eapply IH; [|exact M2|exact E|exact LG]. eapply step_ok; [exact I|exact M1|exact Q|]. eapply grows_log; [eapply run_log; exact E|exact LG].
Qed.
End Run.
