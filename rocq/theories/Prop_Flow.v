(* Prop_Flow.v - properties C29 and C30: push_relabel keeps a valid preflow and labelling, and returns
   the value and one side of a minimum isolating cut. *)
From Verif Require Import SpecFlow P_Mutable P_MutableIO M_PushRelabel P_Flow P_Flow2 P_Flow3 P_Flow4 P_Flow5 P_Flow6 P_FlowStore Prop_Mutable.

(** the states of the main loop: any queued vertex may be discharged next, a global relabeling may come at any time *)
Inductive reach (R : list (list half)) (ts : list nat) (src : nat) : prs -> Prop :=
| r_start s : global_relabel true R ts src (pr_init R ts src) = Some s -> reach R ts src s
| r_discharge s v : reach R ts src s -> In v (p_q s) -> reach R ts src (discharge R v (take v s))
| r_global s s' : reach R ts src s -> global_relabel false R ts src s = Some s' -> reach R ts src s'.

Definition flow_of (s : prs) (v e : nat) : Z := eflow (p_fl s) v e.
Definition excess_of (s : prs) (v : nat) : Z := nth v (p_ex s) 0%Z.
Definition level_of (s : prs) (v : nat) : nat := nth v (p_ds s) 0.

Lemma finv_preflow R src K s : valid_rows R -> finv R src K (p_fl s) (p_ex s) -> labv R (p_fl s) (p_ds s) ->
  preflow R src (flow_of s) (excess_of s) (level_of s).
Proof.
  intros V F L. constructor.
  - intros v e t w r H. apply (f_anti _ _ _ _ _ F v e t w r H).
  - intros v e t w r H. apply (f_cap _ _ _ _ _ F v e t w r H).
  - intros v Hv Nv. unfold excess_of. rewrite (f_ex _ _ _ _ _ F v Hv). destruct (Nat.eqb_spec v src); [contradiction|].
    unfold inflow. fold (rl R v). fold (zsum (rl R v) (fun e => match nth_error (nth v R []) e with Some (t, _, r) => flow_of s t r | None => 0%Z end)).
    assert (E : zsum (length R) (Phi R (p_fl s) v) = zsum (rl R v) (fun e => flow_of s v e)).
    { unfold Phi. rewrite zsum_swap. apply zsum_ext. intros e He. destruct (slot_some R v e He) as (t & w & r & S). rewrite S.
      destruct (V v e t w r S) as [Ht _]. rewrite <- (zsum_single (length R) t (fun _ => flow_of s v e) Ht). apply zsum_ext. intros x _. rewrite Nat.eqb_sym. reflexivity. }
    rewrite E. cbn [Z.sub Z.add]. change (0 - zsum (rl R v) (fun e => flow_of s v e))%Z with (- zsum (rl R v) (fun e => flow_of s v e))%Z.
    rewrite <- zsum_opp. apply zsum_ext. intros e He. destruct (slot_some R v e He) as (t & w & r & S). fold (slot R v e). rewrite S.
    symmetry. apply (f_anti _ _ _ _ _ F v e t w r S).
  - intros v Hv Nv. apply (f_pos _ _ _ _ _ F v Hv).
  - intros v e t w r H Re. apply (L v e t w r H Re).
Qed.

Lemma reach_inv R ts src s : valid_rows R -> (forall t, In t ts -> t < length R) -> In src ts -> NoDup ts -> reach R ts src s ->
  exists K, inv R ts src K s (length R).
Proof.
  intros V Ht Hs Nd H. induction H as [s E|s v H [K IH] Hv|s s' H [K IH] E].
  - destruct (start_ok R ts src V Ht Hs Nd) as (s0 & E0 & I). rewrite E in E0. injection E0 as <-. eauto.
  - exists K. apply (discharge_ok R ts src V Ht Hs K s v IH Hv).
  - exists K. destruct (global_ok R ts src V Ht Hs Nd K s IH) as (s2 & E2 & I & _). rewrite E in E2. injection E2 as <-. auto.
Qed.

(** C29: at the head of the main loop and after every push of every discharge; the level of a vertex never
    leaves the range of m_count *)
Theorem C29_preflow : forall R ts src, valid_rows R -> (forall t, In t ts -> t < length R) -> In src ts -> NoDup ts ->
  forall s, reach R ts src s ->
  preflow R src (flow_of s) (excess_of s) (level_of s) /\
  (forall v k, In v (p_q s) -> k <= length (nth v R []) ->
     let s1 := push_rounds R v k (take v s) in preflow R src (flow_of s1) (excess_of s1) (level_of s1)) /\
  (forall v, v < length R -> level_of s v < length (p_ct s)) /\
  level_of s src = length R /\ (forall t, In t ts -> t <> src -> level_of s t = 0).
Proof.
  intros R ts src V Ht Hs Nd s H. destruct (reach_inv R ts src s V Ht Hs Nd H) as [K I].
  split; [eapply finv_preflow; [auto|apply (i_f _ _ _ _ _ _ I)|apply (i_lab _ _ _ _ _ _ I)]|].
  split; [|split; [intros v Hv; rewrite (l_clen _ _ _ _ _ (i_l _ _ _ _ _ _ I)); apply (l_lt _ _ _ _ _ (i_l _ _ _ _ _ _ I) v Hv)|
    split; [apply (l_src _ _ _ _ _ (i_l _ _ _ _ _ _ I))|apply (l_snk _ _ _ _ _ (i_l _ _ _ _ _ _ I))]]].
  intros v k Hv Hk. pose proof (take_ok R ts src Ht K s v I Hv) as [F L Q LI].
  destruct (push_rounds_ok R ts src V Ht K v (take v s) k F Q Hk) as (PU & _). cbv zeta in *.
  eapply finv_preflow; [auto|apply (pu_f _ _ _ _ _ _ _ PU)|apply (pu_lab _ _ _ _ _ _ _ PU); exact L].
Qed.
Print Assumptions C29_preflow.

(** every run of the main loop goes through such states *)
Theorem C29_runs_reach : forall R ts src pick gl, (forall k q, q <> [] -> In (pick k q) q) ->
  forall fuel k s s', reach R ts src s -> pr_loop fuel pick gl k R ts src s = Some s' -> reach R ts src s'.
Proof.
  intros R ts src pick gl Hp. induction fuel as [|f IH]; intros k s s' H E; cbn [pr_loop] in E; destruct (p_q s) as [|x q] eqn:Q; try discriminate; try (injection E as <-; auto).
  rewrite <- Q in E. assert (Hv : In (pick k (p_q s)) (p_q s)) by (apply Hp; congruence).
  destruct (gl k).
  - destruct (global_relabel false R ts src (discharge R (pick k (p_q s)) (take (pick k (p_q s)) s))) as [s2|] eqn:G; [|discriminate].
    eapply IH; [|exact E]. eapply r_global; [|exact G]. apply r_discharge; auto.
  - eapply IH; [|exact E]. apply r_discharge; auto.
Qed.
Print Assumptions C29_runs_reach.

(** C30: for every choice of the queue and every schedule of global relabelings the solver terminates, the value
    is the minimum weight of an isolating set and the source set is such a set *)
Theorem C30_max_flow_min_cut : forall R ts i src, valid_rows R -> (forall t, In t ts -> t < length R) -> NoDup ts -> nth_error ts i = Some src ->
  forall pick gl, (forall k q, q <> [] -> In (pick k q) q) ->
  exists fuel c l, (forall fuel', fuel <= fuel' -> solve_max_flow fuel' pick gl R ts i = Some (Z.of_N c, l)) /\
    NoDup l /\ (forall v, In v l -> v < length R /\ (v = src \/ (nth v R [] <> [] /\ nth src R [] <> []))) /\
    min_isolating (length R) (wt (adj R)) ts src (fun v => existsb (Nat.eqb v) l) c.
Proof.
  intros R ts i src V Ht Nd Ei pick gl Hp.
  destruct (solve_ok R ts src V Ht (nth_error_In _ _ Ei) Nd pick gl i Ei Hp) as (fuel & c & l & A & B & C & D & E & F & G).
  exists fuel, c, l. split; [auto|]. split; [auto|]. split; [auto|]. split; [|split; [exact F|]].
  - split; [apply mem_In; auto|]. intros t T1 T2. apply mem_out. auto.
  - intros S' [S1 S2]. apply G; auto.
Qed.
Print Assumptions C30_max_flow_min_cut.

(** whatever a terminating run returns is such a value and set *)
Lemma pr_loop_mono pick gl R ts src f : forall k s s', pr_loop f pick gl k R ts src s = Some s' -> forall f', f <= f' -> pr_loop f' pick gl k R ts src s = Some s'.
Proof.
  induction f as [|f IH]; intros k s s' H f' Hf; destruct f' as [|f']; try lia; cbn [pr_loop] in *; destruct (p_q s); try discriminate; auto.
  destruct (if gl k then _ else _); [|discriminate]. apply IH; [auto|lia].
Qed.
Theorem C30_result : forall R ts i src fuel pick gl x l, valid_rows R -> (forall t, In t ts -> t < length R) -> NoDup ts -> nth_error ts i = Some src ->
  (forall k q, q <> [] -> In (pick k q) q) -> solve_max_flow fuel pick gl R ts i = Some (x, l) ->
  exists c, x = Z.of_N c /\ NoDup l /\ (forall v, In v l -> v < length R /\ (v = src \/ (nth v R [] <> [] /\ nth src R [] <> []))) /\
    min_isolating (length R) (wt (adj R)) ts src (fun v => existsb (Nat.eqb v) l) c.
Proof.
  intros R ts i src fuel pick gl x l V Ht Nd Ei Hp E.
  destruct (C30_max_flow_min_cut R ts i src V Ht Nd Ei pick gl Hp) as (f0 & c & l' & A & B & C & D).
  assert (X : solve_max_flow (fuel + f0) pick gl R ts i = Some (x, l)).
  { unfold solve_max_flow in *. destruct (negb (forallb _ ts)); [auto|]. destruct (nth_error ts i); [|discriminate].
    destruct (global_relabel true R ts n (pr_init R ts n)) as [s0|]; [|discriminate].
    destruct (pr_loop fuel pick gl 0 R ts n s0) as [s|] eqn:P; [|discriminate]. rewrite (pr_loop_mono _ _ _ _ _ _ _ _ _ P) by lia. auto. }
  rewrite A in X by lia. injection X as <- <-. exists c. auto.
Qed.
Print Assumptions C30_result.

(** terminals 0, 4 and 6; the cheapest set around 0 has weight 5 *)
Definition flow_ops : list mop := [NewOrder 0 1 4; NewOrder 0 2 3; NewOrder 1 2 2; NewOrder 1 3 1; NewOrder 2 3 3; NewOrder 3 4 7; NewOrder 2 5 1; NewOrder 5 6 2; NewOrder 5 4 4].
Definition flow_rows : list (list half) := m_rows (mg_of 7 flow_ops).
Definition first_of (k : nat) (q : list nat) : nat := nth 0 q 0.
Example c30_hyps : valid_rows flow_rows /\ (forall t, In t [0; 4; 6] -> t < length flow_rows) /\ NoDup [0; 4; 6] /\ nth_error [0; 4; 6] 0 = Some 0 /\
  (forall k q, q <> [] -> In (first_of k q) q).
Proof.
  destruct (mg_of_valid 7 flow_ops eq_refl) as [A [B C]]. split; [apply A|]. assert (L : length flow_rows = 7) by (vm_compute; reflexivity). rewrite L. split; [intros t [<-|[<-|[<-|[]]]]; lia|].
  split; [repeat constructor; cbn; intuition discriminate|]. split; [reflexivity|]. intros k [|x q] H; [congruence|left; reflexivity].
Qed.
Example c30_run : solve_max_flow 100 first_of (fun k => k =? 3) flow_rows [0; 4; 6] 0 = Some (5%Z, [0; 1; 2]).
Proof. vm_compute. reflexivity. Qed.
Example c30_other : solve_max_flow 100 (fun _ q => last q 0) (fun _ => false) flow_rows [0; 4; 6] 2 = Some (2%Z, [6]).
Proof. vm_compute. reflexivity. Qed.
Example c29_state : exists s, global_relabel true flow_rows [0; 4; 6] 0 (pr_init flow_rows [0; 4; 6] 0) = Some s /\ p_q s = [1; 2] /\ p_ds s = [7; 2; 2; 1; 0; 1; 0] /\
  let s2 := discharge flow_rows 1 (take 1 s) in reach flow_rows [0; 4; 6] 0 s2 /\ p_ex s2 = [0; 3; 3; 1; 0; 0; 0]%Z /\ p_ds s2 = [7; 3; 2; 1; 0; 1; 0] /\ p_q s2 = [2; 3; 1].
Proof.
  destruct (global_relabel true flow_rows [0; 4; 6] 0 (pr_init flow_rows [0; 4; 6] 0)) as [s|] eqn:E; [|vm_compute in E; discriminate E].
  exists s. split; [reflexivity|]. pose proof (r_start _ _ _ _ E) as Rs. vm_compute in E. injection E as <-.
  split; [vm_compute; reflexivity|]. split; [vm_compute; reflexivity|]. split; [apply r_discharge; [exact Rs|vm_compute; auto]|]. vm_compute. auto.
Qed.

(** C51: the sequential solver keeps its flow in the graph; under an id that no half edge carries with a non-zero
    flow, every sequence of reads and additions behaves as on a vector of the solver that starts at zero *)
Theorem C51_stored_flow : forall pid g ops, Forall (fop_range g) ops ->
  (forall v e f, nth_error (nth v g []) e = Some (f, pid) -> f = 0%Z) ->
  run_stored pid ops g = run_own ops (map (fun row => repeat 0%Z (length row)) g).
Proof.
  intros pid g ops Hr Hf.
  assert (R0 : forall v, nth v (map (fun row : list (Z * N) => repeat 0%Z (length row)) g) [] = repeat 0%Z (length (nth v g []))).
  { intro v. change (@nil Z) with ((fun row : list (Z * N) => repeat 0%Z (length row)) []). rewrite map_nth. reflexivity. }
  apply stored_own; auto.
  - rewrite map_length. reflexivity.
  - intro v. rewrite R0, repeat_length. reflexivity.
  - intros v e. unfold eflow. rewrite R0, nth_repeat'. unfold reads. destruct (nth e (nth v g []) (0%Z, 0%N)) as [f p] eqn:N.
    destruct (N.eqb_spec p pid) as [->|]; [|reflexivity]. destruct (Nat.lt_ge_cases e (length (nth v g []))) as [L|L].
    + apply (Hf v e). rewrite (nth_error_nth_lt _ _ (0%Z, 0%N)) by auto. congruence.
    + rewrite nth_overflow in N by auto. injection N as <- _. reflexivity.
Qed.
Print Assumptions C51_stored_flow.

Definition store_ex : gflows := [[(0%Z, 0%N); (5%Z, 3%N)]; [((-5)%Z, 3%N)]].
Definition store_ops : list fop := [FGet 0 1; FAdd 0 1 2; FAdd 1 0 (-2); FAdd 0 1 4; FGet 0 1; FGet 1 0; FGet 0 0].
Example c51_hyps : Forall (fop_range store_ex) store_ops /\ forall v e f, nth_error (nth v store_ex []) e = Some (f, 7%N) -> f = 0%Z.
Proof.
  split; [repeat (constructor; [cbn; lia|]); constructor|].
  intros [|[|v]] [|[|[|e]]] f H; cbn in H; try discriminate H; destruct v; discriminate H.
Qed.
Example c51_run : run_stored 7 store_ops store_ex = [0; 6; -2; 0]%Z.
Proof. reflexivity. Qed.

(** the id of a run is drawn at random; drawing the id of an earlier run again reads that run's flow *)
Theorem C51_reused_id_refuted : exists g ops, Forall (fop_range g) ops /\
  run_stored 3 ops g <> run_own ops (map (fun row => repeat 0%Z (length row)) g).
Proof. exists store_ex, store_ops. split; [apply c51_hyps|]. vm_compute. discriminate. Qed.
Print Assumptions C51_reused_id_refuted.
