(* Prop_ParUnionFind.v - properties C03, C04, C49 of lib/parallel/data_structure/union_find.h *)
From Verif Require Import P_ParUnionFind.

(** C03.  Whatever the programs of the threads and whatever the schedule, two elements for which
    Find ever answered the same representative are connected by the pairs passed to Union so far;
    also every parent link stays inside the closure of those pairs. *)
Theorem C03_par_uf_sound : forall n progs sched,
  Forall (Forall (pop_lt n)) progs ->
  let s := prun (pinit n progs) sched in
  (forall a b r, In (EFind a r) (pev_log s) -> In (EFind b r) (pev_log s) -> conn (pissued s) a b) /\
  (forall x, x < n -> nth x (ppar s) 0 < n /\ conn (pissued s) x (nth x (ppar s) 0)).
Proof.
  intros n progs sched Hp s.
  assert (Hi : pinv n s) by exact (pinv_run n sched _ (pinv_init n progs Hp)).
  split; [|exact (pi_par _ _ Hi)].
  intros a b r Ha Hb. apply conn_trans with r; [exact (pi_ev _ _ Hi _ Ha)|].
  apply conn_sym. exact (pi_ev _ _ Hi _ Hb).
Qed.
Print Assumptions C03_par_uf_sound.

(** C03, bound on the issued pairs: only pairs occurring in the programs are ever issued, so the
    closure in [C03_par_uf_sound] is the closure of requested unions. *)
Lemma issued_from_programs : forall sched s (P : nat * nat -> Prop),
  (forall c prog a b, In (c, prog) (pthr s) -> In (PUnion a b) prog -> P (a, b)) ->
  (forall q, In q (pissued s) -> P q) ->
  forall q, In q (pissued (prun s sched)) -> P q.
Proof.
  induction sched as [|t sched IH]; intros s P Hprog Hiss q Hq; [exact (Hiss q Hq)|].
  apply (IH (pstep s t) P); [| |exact Hq].
  - intros c prog a b Hin Hu. unfold pstep in Hin.
    destruct (nth_error (pthr s) t) as [[c0 prog0]|] eqn:E; [|eauto].
    apply nth_error_In in E.
    assert (Hgen : forall c' pr, (forall o, In o pr -> In o prog0) ->
       In (c, prog) (upd (pthr s) t (c', pr)) -> P (a, b)).
    { intros c' pr Hsub H. apply in_upd in H as [H|H]; [injection H as -> ->; eauto|eauto]. }
    destruct c0; try (match goal with H : context [pstep_pc ?x ?y ?z] |- _ =>
       destruct (pstep_pc x y z) as [[[? ?] ?] ?]; simpl in H; eapply Hgen; [|exact H]; auto end).
    destruct prog0 as [|o prog0]; [eauto|]. simpl in Hin. eapply Hgen; [|exact Hin]. intros; now right.
  - intros q' Hq'. unfold pstep in Hq'.
    destruct (nth_error (pthr s) t) as [[c0 prog0]|] eqn:E; [|eauto].
    apply nth_error_In in E.
    destruct c0; try (match goal with H : context [pstep_pc ?x ?y ?z] |- _ =>
       destruct (pstep_pc x y z) as [[[? ?] ?] ?]; simpl in H; auto end).
    destruct prog0 as [|o prog0]; [eauto|]. simpl in Hq'. apply in_app_or in Hq' as [|Hq']; [auto|].
    destruct o; simpl in Hq'; [|contradiction]. destruct Hq' as [<-|[]]. eapply Hprog; [exact E|]. now left.
Qed.

Theorem C03_issued_are_requested : forall n progs sched a b,
  In (a, b) (pissued (prun (pinit n progs) sched)) -> exists p, In p progs /\ In (PUnion a b) p.
Proof.
  intros n progs sched a b H.
  apply (issued_from_programs sched (pinit n progs)
    (fun q => exists p, In p progs /\ In (PUnion (fst q) (snd q)) p)) in H; [exact H| |].
  - intros c prog a' b' Hin Hu. simpl in Hin. apply in_map_iff in Hin as (p & E & Hin).
    injection E as <- <-. eauto.
  - simpl. easy.
Qed.
Print Assumptions C03_issued_are_requested.

(** C04.  From every reachable state (any programs, any schedule), any thread [t], wherever it
    is inside Find or Union, returns within 15n+25 of its own steps once the other threads stop.
    In particular Find always terminates after the writers have stopped, even though the parent
    links can contain cycles (see the refutation below). *)
Theorem C04_call_terminates_alone : forall n progs sched t c prog,
  Forall (Forall (pop_lt n)) progs ->
  let s := prun (pinit n progs) sched in
  nth_error (pthr s) t = Some (c, prog) ->
  exists k, k <= 15 * n + 25 /\ nth_error (pthr (prun s (repeat t k))) t = Some (Idle, prog).
Proof.
  intros n progs sched t c prog Hp s Ht.
  assert (Hi : pinv n s) by exact (pinv_run n sched _ (pinv_init n progs Hp)).
  destruct (pi_thr _ _ Hi _ _ (nth_error_In _ _ Ht)) as (Hlt & _ & _).
  assert (Hok : okarr n (ppar s) (prnk s)).
  { split; [apply Hi|split; [apply Hi|]]. intros z Hz. apply (pi_par _ _ Hi z Hz). }
  destruct (fin_any n (ppar s) (prnk s) c Hok Hlt) as (k & par' & rnk' & Hk & Hs).
  exists k. split; [exact Hk|].
  apply (solo_prun t prog _ _ _ _ _ _ _ Hs s eq_refl eq_refl Ht).
Qed.
Print Assumptions C04_call_terminates_alone.

(* two threads; thread 0 is stopped between its rank check (line 102) and its CAS (line 106) while
   thread 1 first bumps the rank of element 1 and then links 2 below 1 *)
Definition cyc_progs : list (list pop) :=
  [[PUnion 1 2; PFind 1]; [PUnion 0 1; PUnion 1 2; PFind 2]].
Definition cyc_sched : list nat := repeat 0 7 ++ repeat 1 25 ++ repeat 0 4.
(* afterwards both threads call Find and halve the cycle 1 -> 2 -> 1 at the same time *)
Definition lost_sched : list nat := cyc_sched ++ repeat 0 4 ++ repeat 1 4 ++ repeat 0 5 ++ repeat 1 6.

Example cyc_progs_in_range : Forall (Forall (pop_lt 3)) cyc_progs.
Proof. repeat constructor. Qed.

(** C49 (first half) is false: a schedule of two threads after which all Union calls have returned
    and the parent links contain a cycle of length two. *)
Theorem C49_acyclic_refuted : exists n progs sched x y,
  Forall (Forall (pop_lt n)) progs /\ x < n /\ y < n /\ x <> y /\
  let s := prun (pinit n progs) sched in
  Forall (fun cp => fst cp = Idle) (pthr s) /\
  nth x (ppar s) 0 = y /\ nth y (ppar s) 0 = x.
Proof.
  exists 3, cyc_progs, cyc_sched, 1, 2.
  split; [exact cyc_progs_in_range|]. split; [lia|]. split; [lia|]. split; [lia|].
  vm_compute. repeat constructor.
Qed.
Print Assumptions C49_acyclic_refuted.

(** C49 (second half) is false: a schedule in which all calls have returned, Union(1,2) has been
    called (twice, both calls returning true), and yet 1 and 2 are both roots, i.e. in
    different sets: the union is lost. *)
Theorem C49_union_lost_refuted : exists n progs sched a b,
  Forall (Forall (pop_lt n)) progs /\ a <> b /\
  let s := prun (pinit n progs) sched in
  pdone s /\ In (a, b) (pissued s) /\ nth a (ppar s) 0 = a /\ nth b (ppar s) 0 = b.
Proof.
  exists 3, cyc_progs, lost_sched, 1, 2. split; [exact cyc_progs_in_range|]. split; [lia|].
  vm_compute. repeat split; repeat constructor.
Qed.
Print Assumptions C49_union_lost_refuted.

(* the hypotheses of C03/C04 on a concrete run in which threads really interleave *)
Example par_uf_demo :
  let s := prun (pinit 3 cyc_progs) (repeat 0 7 ++ repeat 1 15) in
  (ppar s, prnk s, pissued s, nth_error (pthr s) 0) =
  ([1; 1; 2], [0; 1; 0], [(1, 2); (0, 1)], Some (U3 true 1 0 2 0, [PFind 1])).
Proof. vm_compute. reflexivity. Qed.
