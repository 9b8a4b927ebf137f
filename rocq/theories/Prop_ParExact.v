(* Prop_ParExact.v - C61: the exact parallel algorithm returns the minimum cut *)
From Verif Require Export SpecHier P_Hier M_ParExact P_Noi P_ParExact Prop_ParCapforest.

(** Terms of the statements: [fair]: in every round every thread takes enough steps to finish; [c0, marks0]: a cut of the graph
    not heavier than the minimum degree, as left by VieCut (C19); [marks_ok G marks c]: the marked side is a cut of
    weight c; the [l] are the final states of the parallel scans. *)

(** Whatever the scheduling, the loop terminates without an error and reports a real cut not heavier than the one
    VieCut found; the value is the minimum cut if in no round a thread read visited[tgt] first as false and then
    as true in lines 221 and 226 of parallel_modified_capforest.
    Missing for C61: executions with such reads (C61_refuted); values from 2^31 - 1 on; the concurrent union-find and
    the parallel contraction are replaced by sequential ones. *)
Theorem C61_exact_partial : forall cf rnd starts sched ord G c0 marks0, (forall r p l, Permutation (ord r p l) l) ->
  undirected G -> 2 <= length G -> fair starts sched ->
  marks_ok G marks0 c0 -> (c0 <= min_degree G)%N -> (c0 + 1 < 2 ^ 31)%N -> (cfg_nolimit cf = true -> (total G < 2 ^ 32)%N) ->
  exists c marks l, par_exact cf rnd starts sched ord G c0 marks0 = Some (c, marks, l) /\ marks_ok G marks c /\ (c <= c0)%N /\
    ((forall p, In p l -> agree (p_tr p)) -> mincut_of G c).
Proof.
  intros cf rnd starts sched ord G c0 marks0 Po U Hn Fa Mk Hd H31 Tot.
  change (2 ^ 31)%N with 2147483648%N in H31. change (2 ^ 32)%N with 4294967296%N in Tot.
  destruct (par_loop_ok cf rnd starts sched ord G Po U Fa Tot (length G) True [] G c0 marks0) as [c [marks [l [E [M [L X]]]]]].
  - constructor; auto.
    + constructor.
    + lia.
    + intros _ S PS L. exists S. auto.
    + intros _ v Hv. etransitivity; [exact Hd|]. apply min_degree_ok. auto.
    + unfold u64max. lia.
  - lia.
  - exists c, marks, l. auto.
Qed.
Print Assumptions C61_exact_partial.

(** two threads: the given start of an interleaving, then thread 0 to its end, then thread 1 *)
Definition then_fair (pre : list nat) (r : nat) (H : graph) : list nat :=
  let k := 1 + list_sum (map (fun es => 4 + 3 * length es) H) in pre ++ repeat 0 k ++ repeat 1 k.

Lemma count_repeat_self (x k : nat) : count_occ Nat.eq_dec (repeat x k) x = k.
Proof. induction k as [|k IH]; [reflexivity|]. simpl. destruct (Nat.eq_dec x x); [lia|contradiction]. Qed.

Lemma then_fair_ok pre (st : nat -> list nat) : (forall r, length (st r) = 2) -> fair st (then_fair pre).
Proof.
  intros L r H i Hi. rewrite L in Hi. unfold then_fair. rewrite !count_occ_app.
  destruct i as [|[|i]]; [| |lia]; rewrite (count_repeat_self _ _); lia.
Qed.

(** With the interleaving of C41_refuted the algorithm returns 5 for a graph of minimum cut 2, from the start value 5
    (the cut {0}, of minimum degree). *)
Theorem C61_refuted : exists G cf rnd starts sched ord c0 marks0 c marks l,
  (forall r p l, Permutation (ord r p l) l) /\ undirected G /\ fair starts sched /\
  marks_ok G marks0 c0 /\ (c0 <= min_degree G)%N /\ (c0 + 1 < 2 ^ 31)%N /\
  par_exact cf rnd starts sched ord G c0 marks0 = Some (c, marks, l) /\ mincut_of G 2 /\ c = 5%N.
Proof.
  exists race_g, (mk_cfg KDefault false), (fun _ => 0), (fun _ => [0; 1]), (then_fair [1;1; 0;0;0;0;0; 1; 0]), (fun _ _ l => l), 5%N, [true; false; false; false].
  destruct (par_exact (mk_cfg KDefault false) (fun _ => 0) (fun _ => [0; 1]) (then_fair [1;1; 0;0;0;0;0; 1; 0]) (fun _ _ l => l) race_g 5 [true; false; false; false])
    as [[[c marks] l]|] eqn:E; [|vm_compute in E; discriminate E].
  exists c, marks, l. split; [auto|]. split; [apply undirectedb_ok; vm_compute; reflexivity|].
  split; [apply then_fair_ok; reflexivity|]. split.
  { split; [reflexivity|]. split; [|vm_compute; reflexivity]. split; [exists 0|exists 1]; split; vm_compute; auto. }
  split; [vm_compute; discriminate|]. split; [vm_compute; reflexivity|]. split; [reflexivity|].
  split; [exact race_mincut|]. vm_compute in E. injection E as <- _ _. reflexivity.
Qed.
Print Assumptions C61_refuted.

(** The same graph and start value under another interleaving: the hypotheses of C61_exact_partial hold, the reads
    agree, and the value is 2. *)
Example C61_run : exists c marks l, par_exact (mk_cfg KDefault false) (fun _ => 0) (fun _ => [0; 1]) (then_fair []) (fun _ _ l => l) race_g 5 [true; false; false; false]
    = Some (c, marks, l) /\ c = 2%N /\ (forall p, In p l -> agree (p_tr p)) /\ fair (fun _ => [0; 1]) (then_fair []) /\ length l = 2.
Proof.
  destruct (par_exact (mk_cfg KDefault false) (fun _ => 0) (fun _ => [0; 1]) (then_fair []) (fun _ _ l => l) race_g 5 [true; false; false; false])
    as [[[c marks] l]|] eqn:E; [|vm_compute in E; discriminate E].
  exists c, marks, l. split; [reflexivity|]. vm_compute in E. injection E as <- <- <-. split; [reflexivity|]. split; [|split; [apply then_fair_ok; reflexivity|reflexivity]].
  intros p H i t X. repeat (destruct H as [<-|H]; [cbn [p_tr] in X; repeat (destruct X as [X|X]; [discriminate X|]); contradiction|]). contradiction.
Qed.
