(* Prop_Queue.v - C39: the problem queue loses no subproblem *)
From Verif Require Export P_Queue2.
From Coq Require Import Permutation Lia Sorted.

(** Terms of the statements (P_Queue2): [idle s]: no thread is inside a call; [one_adder s]: at most one thread is inside
    addProblem; [q_states top sched s]: the states passed through; [top_ok]: top() gives an element of the queue and pop()
    removes it; [by_bound]: latest first, lower bounds not increasing, that is added in increasing order; [pulls]: steps of thread
    0 that are pullProblem calls only. *)
Definition stored (s : qst) : list prob := flat_map (fun l => l) (q_pq s) ++ match q_send s with Some p => [p] | None => [] end.

Lemma count_le_app (x : prob) a b : count_occ prob_dec b x <= count_occ prob_dec (a ++ b) x.
Proof. rewrite count_occ_app. lia. Qed.

(** Under every interleaving without an unlock of a mutex that is not held (C39_unlock_refuted): no call of
    pullProblem meets a null problem, no problem is returned or dropped more often than it was added, problems are dropped only
    for their lower bound, and the threads do not block each other for ever. *)
Theorem C39_no_duplicate_partial : forall top nt sched s, top_ok top -> qrun top sched (q_init nt) = Some s -> q_ub s = false ->
  q_null s = false /\
  (forall x, count_occ prob_dec (q_ret s ++ map fst (q_drop s)) x <= count_occ prob_dec (q_added s) x) /\
  (forall p b, In (p, b) (q_drop s) -> (b <= snd p)%N) /\
  (idle s \/ exists i s', qstep top i None s = Some s') /\
  (idle s -> q_size s = length (stored s)).
Proof.
  intros top nt sched s TOK H U. pose proof (qinv_run top TOK _ _ _ (qinv_init nt) H U) as I.
  pose proof (slot_run top TOK _ _ _ (qinv_init nt) (slot_init nt) H U) as SI.
  split; [apply (i_null _ I)|]. split; [|split; [|split]].
  - intros x. pose proof (i_cons _ I x) as C. unfold held, cnt in C. rewrite !count_occ_app in *. lia.
  - intros p b IN. pose proof (i_drop _ I) as D. rewrite Forall_forall in D. apply (D _ IN).
  - destruct (Exists_dec (fun t => t <> Idle) (q_thr s)) as [E|E].
    { intros t. destruct t; (left; discriminate) || (right; intros X; apply X; reflexivity). }
    + right. apply Exists_exists in E as [t [IN NE]]. apply (In_nth _ _ Idle) in IN as [i [_ E]]. apply (progress top i s I). unfold th. congruence.
    + left. intros i. unfold th. destruct (Nat.lt_ge_cases i (length (q_thr s))) as [L|G]; [|apply nth_overflow; lia].
      destruct (nth i (q_thr s) Idle) eqn:T; auto; exfalso; apply E, Exists_exists; eexists; (split; [apply nth_In, L|]); rewrite T; discriminate.
  - intros D. rewrite (idle_size s I D (slot_idle s I SI D)). unfold stored. rewrite app_length. destruct (q_send s); reflexivity.
Qed.
Print Assumptions C39_no_duplicate_partial.

(** If moreover never two threads are inside addProblem at once, then no problem is lost: once the calls are
    finished every problem added is in a queue, in the send slot, was returned or was dropped, each exactly once; and pullProblem
    calls of a single thread then deliver all of them. *)
Theorem C39_conservation_partial : forall top nt sched s, top_ok top -> 0 < nt -> qrun top sched (q_init nt) = Some s -> q_ub s = false ->
  Forall one_adder (q_states top sched (q_init nt)) -> idle s ->
  Permutation (q_added s) (stored s ++ q_ret s ++ map fst (q_drop s)) /\
  exists sched' s', pulls sched' /\ qrun top sched' s = Some s' /\ idle s' /\ q_added s' = q_added s /\
    Permutation (q_added s) (q_ret s' ++ map fst (q_drop s)).
Proof.
  intros top nt sched s TOK NT H U F D. pose proof (qinv_run top TOK _ _ _ (qinv_init nt) H U) as I.
  pose proof (slot_run top TOK _ _ _ (qinv_init nt) (slot_init nt) H U) as SI.
  pose proof (solo_run top TOK _ _ _ (qinv_init nt) (slot_init nt) (solo_init nt) F H U) as [LO _].
  assert (LT : length (q_thr s) = nt).
  { clear - H. replace nt with (length (q_thr (q_init nt))) by (cbn; apply repeat_length). revert H. generalize (q_init nt). induction sched as [|[i c] sched IH]; cbn; intros q H.
    - injection H as <-. reflexivity.
    - destruct (qstep top i c q) as [q1|] eqn:E; [|discriminate H]. rewrite (IH _ H). eapply step_len; eauto. }
  split.
  - pose proof (idle_perm s I D) as P. rewrite LO, app_nil_r in P. unfold stored. rewrite <- app_assoc. exact P.
  - destruct (drain top TOK (inside s) s (le_n _) I SI U D ltac:(lia)) as [sc [s' [P1 [R [D' [U' [I' [A [DR [L0 Z]]]]]]]]]].
    exists sc, s'. split; [exact P1|]. split; [exact R|]. split; [exact D'|]. split; [exact A|].
    pose proof (idle_perm s' I' D') as P. rewrite L0, LO, app_nil_r, A, DR in P. unfold inside in Z.
    destruct (flat_map (fun l => l) (q_pq s')); [|discriminate Z]. destruct (q_send s'); [discriminate Z|]. exact P.
Qed.
Print Assumptions C39_conservation_partial.

(** No hypothesis on undefined behaviour is needed when problems are added in the order of their lower bounds, since then the send
    slot is never exchanged. *)
Theorem C39_ordered_partial : forall top nt sched s, top_ok top -> qrun top sched (q_init nt) = Some s ->
  Forall one_adder (q_states top sched (q_init nt)) -> by_bound (q_added s) -> q_ub s = false.
Proof. intros top nt sched s TOK H F B. exact (ord_run top TOK sched _ _ (qinv_init nt) eq_refl (ord_init nt) F H B). Qed.
Print Assumptions C39_ordered_partial.

(** the queue used in the examples: the smallest lower bound first, the default "lower_bound" (237-245, 78) *)
Fixpoint pq_min (p : prob) (l : list prob) : prob * list prob :=
  match l with
  | [] => (p, [])
  | q :: l' => if (snd q <? snd p)%N then let (m, r) := pq_min q l' in (m, p :: r) else let (m, r) := pq_min p l' in (m, q :: r)
  end.
Definition pq_top (l : list prob) : option (prob * list prob) := match l with [] => None | p :: l' => Some (pq_min p l') end.
Lemma pq_min_perm l : forall p m r, pq_min p l = (m, r) -> Permutation (p :: l) (m :: r).
Proof.
  induction l as [|q l IH]; cbn; intros p m r H; [injection H as <- <-; auto|]. destruct (snd q <? snd p)%N.
  - destruct (pq_min q l) as [m' r'] eqn:E. injection H as <- <-. apply IH in E. rewrite E. apply perm_swap.
  - destruct (pq_min p l) as [m' r'] eqn:E. injection H as <- <-. apply IH in E. rewrite perm_swap, E. apply perm_swap.
Qed.
Lemma pq_top_ok : top_ok pq_top.
Proof. intros [|p l]; cbn; auto. destruct (pq_min p l) as [m r] eqn:E. apply pq_min_perm. exact E. Qed.

Definition go (i n : nat) : list (nat * option qcall) := repeat (i, None) n.
Definition call (i : nat) (c : qcall) (n : nat) : list (nat * option qcall) := (i, Some c) :: go i n.

(** Two threads call addProblem at the same time, find haveSendProblem false (line 164) and write sendProblem one after the other
    (line 167): the first problem is gone, although nothing undefined happened to any mutex. *)
Theorem C39_lost_refuted : exists nt sched s p, qrun pq_top sched (q_init nt) = Some s /\ q_ub s = false /\ idle s /\
  In p (q_added s) /\ ~ In p (stored s) /\ ~ In p (q_ret s) /\ ~ In p (map fst (q_drop s)).
Proof.
  exists 2, (call 0 (CAdd (1, 5%N) 0) 2 ++ call 1 (CAdd (2, 6%N) 1) 2 ++ go 0 6 ++ go 1 6). eexists. exists (1, 5%N).
  split; [vm_compute; reflexivity|]. split; [reflexivity|]. split; [intros [|[|[|i]]]; reflexivity|].
  split; [cbn; auto|]. cbn. repeat split; intuition congruence.
Qed.
Print Assumptions C39_lost_refuted.

(** One thread alone: adding a problem with a smaller lower bound than that in the slot exchanges the two (180-187), unlocks the
    mutex (186) and unlocks it a second time (188). *)
Theorem C39_unlock_refuted : exists sched s, qrun pq_top sched (q_init 1) = Some s /\
  Forall (fun x => fst x = 0) sched /\ q_ub s = true.
Proof.
  exists (call 0 (CAdd (1, 5%N) 0) 8 ++ call 0 (CAdd (2, 3%N) 0) 10). eexists. split; [vm_compute; reflexivity|].
  split; [vm_compute; repeat constructor | reflexivity].
Qed.
Print Assumptions C39_unlock_refuted.

(** What the second unlock can do when it frees the mutex: thread 0 frees the mutex under thread 1, thread 2 enters as well, both
    take the problem in the slot, and the second ends the program with exit(1) (line 129) although a problem is unsolved. *)
Theorem C39_exit_refuted : exists sched s, qrun pq_top sched (q_init 3) = Some s /\
  Forall one_adder (q_states pq_top sched (q_init 3)) /\ q_null s = true /\ stored s <> [].
Proof.
  set (sched := call 0 (CAdd (1, 5%N) 0) 8 ++ call 0 (CAdd (2, 3%N) 0) 8 ++ call 1 (CPull 1 false) 3 ++ go 0 1 ++ call 2 (CPull 2 false) 4 ++ go 1 5 ++ go 2 4).
  exists sched. eexists. split; [vm_compute; reflexivity|]. split; [|split; [reflexivity|discriminate]].
  assert (B : forallb (fun s => forallb (fun j => negb (adding (th s j))) [1; 2] && (length (q_thr s) =? 3)) (q_states pq_top sched (q_init 3)) = true) by (vm_compute; reflexivity).
  apply Forall_forall. intros s IN. rewrite forallb_forall in B. specialize (B s IN). apply andb_true_iff in B as [B BL]. apply Nat.eqb_eq in BL.
  assert (Z : forall i, adding (th s i) = true -> i = 0).
  { intros [|[|[|i]]] A; auto.
    - cbn [forallb] in B. rewrite A in B. discriminate B.
    - cbn [forallb] in B. rewrite A in B. destruct (negb (adding (th s 1))); discriminate B.
    - unfold th in A. rewrite nth_overflow in A by lia. discriminate A. }
  intros i j A1 A2. apply Z in A1, A2. congruence.
Qed.
Print Assumptions C39_exit_refuted.

(** a case meeting the hypotheses: thread 0 adds three problems, thread 1 pulls one while the third is being added, and drops one *)
Definition q_ex : list (nat * option qcall) :=
  call 0 (CAdd (1, 3%N) 0) 8 ++ call 0 (CAdd (2, 4%N) 1) 6 ++ call 0 (CAdd (3, 4%N) 0) 3 ++ call 1 (CPull 1 true) 8 ++ go 0 6 ++ call 1 (CPrep 1 4%N) 4.
Lemma adders0 sched nt : forallb (fun x => match snd x with Some (CAdd _ _) => fst x =? 0 | _ => true end) sched = true ->
  Forall one_adder (q_states pq_top sched (q_init nt)).
Proof.
  intros B. assert (Z : forall i, adding (th (q_init nt) i) = true -> i = 0) by (intros i A; rewrite th_init in A; discriminate A).
  revert B Z. generalize (q_init nt). induction sched as [|[i c] sched IH]; intros s B Z; cbn [q_states].
  - constructor; [|constructor]. intros a b A1 A2. rewrite (Z a A1), (Z b A2). reflexivity.
  - constructor. { intros a b A1 A2. rewrite (Z a A1), (Z b A2). reflexivity. }
    destruct (qstep pq_top i c s) as [s1|] eqn:E; [|constructor]. cbn [forallb fst snd] in B. apply andb_true_iff in B as [B1 B2]. apply IH; auto.
    intros j A. destruct (Nat.eq_dec j i) as [->|NE].
    + pose proof (Z i) as ZI. revert ZI A B1. clear - E. unfold th. qcase E T L; cbn [q_thr goto set_pq set_have set_send set_wt set_pm set_sm set_ub log_add log_drop log_lost];
      rewrite nth_upd_eq by assumption; rewrite T; cbn; intros; auto; try discriminate; try (apply Nat.eqb_eq; assumption).
    + apply Z. revert A. clear - E NE. unfold th. qcase E T L; cbn; rewrite nth_upd_neq by congruence; auto.
Qed.
Example C39_ex : exists s, qrun pq_top q_ex (q_init 2) = Some s /\ q_ub s = false /\ idle s /\ Forall one_adder (q_states pq_top q_ex (q_init 2)) /\
  by_bound (q_added s) /\ q_added s = [(3, 4%N); (2, 4%N); (1, 3%N)] /\ q_ret s = [(1, 3%N)] /\ q_drop s = [((2, 4%N), 4%N)] /\ stored s = [(3, 4%N)].
Proof.
  eexists. split; [vm_compute; reflexivity|]. split; [reflexivity|]. split; [intros [|[|[|i]]]; reflexivity|].
  split; [apply adders0; vm_compute; reflexivity|]. split; [|repeat split].
  cbn. repeat constructor; cbn; lia.
Qed.
