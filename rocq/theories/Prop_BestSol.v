(* Prop_BestSol.v - property C71: concurrent calls of findBestSolution. *)
From Verif Require Import SpecFlow P_Cut P_Mutable P_Multi P_Kernel P_Kernel3 P_Kernel4 P_MultiCheck Prop_Mutable Prop_Kernel M_Bnb P_Bnb2 M_BestSol P_BestSol.

(** a complete assignment with every terminal in its own block *)
Definition sol_of (G0 : mg) (origs sol : list nat) : Prop := length sol = m_n G0 /\ separates (m_n G0) origs (fun v => nth v sol 0).
Definition cost_of (G0 : mg) (sol : list nat) : N := mtcost (m_n G0) (wtm G0) (fun v => nth v sol 0).

(** findBestSolution is called with solutions, for at most as many terminals as there are, and improveSolution does not make them worse *)
Definition legal (G0 : mg) (origs : list nat) (e : fevent) : Prop :=
  match e with
  | Spawn sol k => sol_of G0 origs sol /\ k <= length origs
  | Go _ imp => forall sol, sol_of G0 origs sol -> sol_of G0 origs (fst (imp sol)) /\ (cost_of G0 (fst (imp sol)) + snd (imp sol) <= cost_of G0 sol)%N
  end.
Definition returned (c : fcall) : Prop := exists e, c_pc c = Done e.

Lemma legal_ok G0 origs e : mvalid G0 -> (forall t, In t origs -> t < m_n G0) -> legal G0 origs e ->
  event_ok (m_n G0) (sol_of G0 origs) (cost_of G0) (flow_value G0 origs) e /\ event_k (S (length origs)) e.
Proof.
  intros V L H. destruct e as [sol k|j imp]; cbn [legal event_ok event_k] in *.
  - destruct H as [H K]. split; [|lia]. split; [exact H|]. split; [apply H|]. intros v E. pose proof (flow_value_sol G0 origs sol V L H) as X. rewrite E in X. injection X as ->. reflexivity.
  - split; [|exact I]. intros sol S LN. destruct (H sol S) as [A B]. split; [exact A|]. split; [apply A|exact B].
Qed.

Definition n_calls (es : list fevent) : nat := length (filter (fun e => match e with Spawn _ _ => true | Go _ _ => false end) es).

(** ** C71: whenever bestsol_mutex is free, best_solution is a whole solution; all calls return; when they have, a solution is
    recorded; global_upper_bound never falls below the optimum.  Missing for the full claim: it need not be the best one *)
Theorem C71_concurrent_partial : forall G0 origs gub0 es s, mvalid G0 -> (forall t, In t origs -> t < m_n G0) -> Forall (legal G0 origs) es ->
  fb_run (flow_value G0 origs) (fb_start (m_n G0) (S (length origs)) gub0) es = Some s ->
  (s_lock s = None -> s_init s = true -> sol_of G0 origs (s_best s) /\ flow_value G0 origs (s_best s) = Some (cost_of G0 (s_best s))) /\
  (forall opt, mtopt (m_n G0) (wtm G0) origs opt -> (opt <= gub0)%N -> (opt <= s_gub s)%N) /\
  ((forall c, In c (s_calls s) -> returned c) -> s_calls s <> [] -> s_lock s = None /\ s_init s = true) /\
  ((exists c, In c (s_calls s) /\ ~ returned c) -> forall imp, exists j, call_step imp s j <> None) /\
  length es <= (2 * m_n G0 + 19) * n_calls es.
Proof.
  intros G0 origs gub0 es s V L F H.
  assert (F1 : Forall (event_ok (m_n G0) (sol_of G0 origs) (cost_of G0) (flow_value G0 origs)) es) by (eapply Forall_impl; [|exact F]; intros e X; apply (legal_ok G0 origs e V L X)).
  assert (F2 : Forall (event_k (S (length origs))) es) by (eapply Forall_impl; [|exact F]; intros e X; apply (legal_ok G0 origs e V L X)).
  pose proof (run_inv _ gub0 _ _ _ es _ _ (inv_start _ (S (length origs)) gub0 _ _) F1 H) as I. pose proof (kinv_run _ _ es _ _ (kinv_start _ _ gub0) F2 H) as K.
  split; [intros A B; pose proof (i_whole _ _ _ _ s I A B) as X; split; [exact X|apply (flow_value_sol G0 origs (s_best s) V L X)]|]. split; [|split; [|split]].
  - intros opt [_ O] LE. destruct (i_gub _ _ _ _ s I) as [->|(sol & [_ S] & _ & B)]; [exact LE|]. etransitivity; [apply (O _ S)|exact B].
  - intros D NE. destruct (quiet _ _ _ _ s I D NE) as (A & B & _). auto.
  - intros (c & IC & ND) imp. apply (progress _ _ _ _ _ s imp I K). exists c. split; [exact IC|]. intros e X. apply ND. exists e. exact X.
  - pose proof (run_work _ (S (length origs)) gub0 _ _ _ es _ _ (inv_start _ (S (length origs)) gub0 _ _) F1 H) as X. cbn [fb_start s_calls work map list_sum fold_right] in X. unfold n_spawn in X. unfold n_calls. change is_spawn with (fun e => match e with Spawn _ _ => true | Go _ _ => false end) in X. cbn in X |- *. lia.
Qed.
Print Assumptions C71_concurrent_partial.

(* a path 0-1-2-3 with terminals 0 and 3, bound 5; the calls report solutions of cost 4 and 3 *)
Definition bs_ops : list mop := [NewOrder 0 1 5; NewOrder 1 2 4; NewOrder 2 3 3].
Definition bsg : mg := mg_of 4 bs_ops.
Definition stay (sol : list nat) : list nat * N := (sol, 0%N).
Definition steps (m j : nat) : list fevent := repeat (Go j stay) m.
(* call 0 reads and writes global_upper_bound, call 1 records its solution, call 0 copies over it *)
Definition bs_events : list fevent := [Spawn [0; 0; 1; 1] 2; Spawn [0; 0; 0; 1] 2] ++ steps 3 0 ++ steps 11 1 ++ steps 14 0 ++ steps 6 1.
Notation bs_run := (fb_run (flow_value bsg [0; 3]) (fb_start (m_n bsg) (S (length [0; 3])) 5) bs_events).
Example bs_show : option_map (fun s => (s_best s, N.to_nat (s_gub s), s_lock s, s_init s, map c_pc (s_calls s))) bs_run = Some ([0; 0; 1; 1], 3, None, true, [Done false; Done false]).
Proof. vm_compute. reflexivity. Qed.
Lemma bs_valid : mvalid bsg /\ forall t, In t [0; 3] -> t < m_n bsg.
Proof. split; [apply (mg_of_valid 4 bs_ops eq_refl)|]. intros t [<-|[<-|[]]]; vm_compute; auto. Qed.
Lemma bs_sol sol : length sol = 4 -> forallb (fun b => b <? 2) sol = true -> nth 0 sol 0 = 0 -> nth 3 sol 0 = 1 -> sol_of bsg [0; 3] sol.
Proof.
  intros L F A B. split; [exact L|]. split.
  - intros v Hv. rewrite forallb_forall in F. apply Nat.ltb_lt, F, nth_In. rewrite L. exact Hv.
  - intros [|[|i]] Hi; [exact A|exact B|cbn in Hi; lia].
Qed.
Lemma bs_legal : Forall (legal bsg [0; 3]) bs_events.
Proof.
  assert (ST : forall m j, Forall (legal bsg [0; 3]) (steps m j)).
  { intros m j. apply Forall_forall. intros e H. apply repeat_spec in H. subst e. intros sol S. split; [exact S|]. cbn [stay fst snd]. lia. }
  unfold bs_events. apply Forall_app. split; [|repeat (apply Forall_app; split); apply ST].
  constructor; [split; [apply bs_sol; reflexivity|cbn; lia]|]. constructor; [split; [apply bs_sol; reflexivity|cbn; lia]|constructor].
Qed.
(* the assumptions of C71 hold for this run, and its optimum is 3 *)
Example c71_run : mvalid bsg /\ (forall t, In t [0; 3] -> t < m_n bsg) /\ Forall (legal bsg [0; 3]) bs_events /\ bs_run <> None /\ mtopt 4 (wtm bsg) [0; 3] 3.
Proof.
  split; [apply bs_valid|]. split; [apply bs_valid|]. split; [exact bs_legal|]. split; [vm_compute; discriminate|]. apply (opt_check_ok 4 (wtm bsg) [0; 3] 3%N [0; 0; 0; 1]). vm_compute. reflexivity.
Qed.

(** ** the whole claim: the solution that is kept is the best one reported, and global_upper_bound is its value *)
Definition C71_statement : Prop := forall G0 origs gub0 es s, mvalid G0 -> (forall t, In t origs -> t < m_n G0) -> Forall (legal G0 origs) es ->
  fb_run (flow_value G0 origs) (fb_start (m_n G0) (S (length origs)) gub0) es = Some s -> (forall c, In c (s_calls s) -> returned c) -> s_calls s <> [] ->
  (cost_of G0 (s_best s) <= s_gub s)%N /\ forall sol k, In (Spawn sol k) es -> (cost_of G0 (s_best s) <= cost_of G0 sol)%N.
Lemma bs_state : exists s, fb_run (flow_value bsg [0; 3]) (fb_start (m_n bsg) (S (length [0; 3])) 5) bs_events = Some s /\ s_best s = [0; 0; 1; 1] /\ map c_pc (s_calls s) = [Done false; Done false].
Proof. pose proof bs_show as SH. destruct (fb_run _ _ _) as [s|]; [|discriminate SH]. exists s. cbn [option_map] in SH. injection SH as B _ _ _ D. auto. Qed.
Lemma bs_worse : N.leb (cost_of bsg [0; 0; 1; 1]) (cost_of bsg [0; 0; 0; 1]) = false.
Proof. vm_compute. reflexivity. Qed.
Theorem C71_lost_update_refuted : ~ C71_statement.
Proof.
  intro H. destruct bs_state as (s & E & B & D).
  destruct (H bsg [0; 3] 5%N bs_events s (proj1 bs_valid) (proj2 bs_valid) bs_legal E) as [_ X].
  - intros c IC. apply (in_map c_pc) in IC. rewrite D in IC. destruct IC as [IC|[IC|[]]]; exists false; auto.
  - intro Z. rewrite Z in D. discriminate D.
  - specialize (X [0; 0; 0; 1] 2 (or_intror (or_introl eq_refl))). rewrite B in X. pose proof bs_worse as Z. apply N.leb_gt, N.lt_nge in Z. exact (Z X).
Qed.
Print Assumptions C71_lost_update_refuted.
