(* P_Split.v - proofs about M_Split: the extracted component. *)
From Coq Require Import Sorted.
From Verif Require Import SpecMutable P_Mutable P_MutableIO M_Split.

(** the position of t in the list of the vertices of the block *)
Definition pid (blk : nat -> bool) (t : nat) : nat := length (filter blk (seq 0 t)).

Lemma pid_S blk t : pid blk (S t) = pid blk t + (if blk t then 1 else 0).
Proof. unfold pid. rewrite seq_S, filter_app, app_length. cbn. destruct (blk t); cbn; lia. Qed.
Lemma pid_mono blk s t : s <= t -> pid blk s <= pid blk t.
Proof. induction 1 as [|t _ IH]; [auto|]. rewrite pid_S. lia. Qed.
Lemma pid_lt blk s t : s < t -> blk s = true -> pid blk s < pid blk t.
Proof. intros L B. apply (Nat.lt_le_trans _ (pid blk (S s))); [rewrite pid_S, B; lia|]. apply pid_mono. lia. Qed.
Lemma nth_pid blk : forall n t, t < n -> blk t = true -> nth (pid blk t) (ext_map blk n) 0 = t.
Proof.
  induction n as [|n IH]; intros t Ht B; [lia|]. unfold ext_map. rewrite seq_S, filter_app. cbn [Nat.add filter].
  destruct (Nat.eq_dec t n) as [->|N].
  - rewrite B, app_nth2 by (unfold pid; lia). unfold pid. rewrite Nat.sub_diag. reflexivity.
  - rewrite app_nth1; [apply IH; auto; lia|]. change (pid blk t < pid blk n). apply pid_lt; auto. lia.
Qed.
Lemma ext_map_In blk n v : In v (ext_map blk n) <-> v < n /\ blk v = true.
Proof. unfold ext_map. rewrite filter_In, in_seq. split; intros [? ?]; split; auto; lia. Qed.
Lemma ext_map_nth blk n i : i < length (ext_map blk n) -> nth i (ext_map blk n) 0 < n /\ blk (nth i (ext_map blk n) 0) = true.
Proof. intro H. apply ext_map_In, nth_In, H. Qed.
Lemma ext_map_length blk n : length (ext_map blk n) = pid blk n. Proof. reflexivity. Qed.
Lemma pid_inj blk s t : blk s = true -> blk t = true -> pid blk s = pid blk t -> s = t.
Proof.
  intros Bs Bt E. destruct (Nat.lt_trichotomy s t) as [L|[L|L]]; [|auto|].
  - pose proof (pid_lt blk s t L Bs). lia.
  - pose proof (pid_lt blk t s L Bt). lia.
Qed.
Lemma pid_nth blk n i : i < length (ext_map blk n) -> pid blk (nth i (ext_map blk n) 0) = i.
Proof.
  revert i. induction n as [|n IH]; intros i H; [cbn in H; lia|]. unfold ext_map in *. rewrite seq_S, filter_app in *. cbn [Nat.add filter] in *.
  rewrite app_length in H. destruct (Nat.lt_ge_cases i (length (filter blk (seq 0 n)))) as [L|L].
  - rewrite app_nth1 by auto. apply IH; auto.
  - destruct (blk n) eqn:B; cbn [length] in H; [|lia]. assert (i = length (filter blk (seq 0 n))) as -> by lia.
    rewrite app_nth2, Nat.sub_diag by lia. reflexivity.
Qed.
Lemma ext_map_lt blk n i j : i < length (ext_map blk n) -> j < length (ext_map blk n) -> (i < j <-> nth i (ext_map blk n) 0 < nth j (ext_map blk n) 0).
Proof.
  intros Hi Hj. pose proof (ext_map_nth blk n i Hi) as [_ Bi]. pose proof (ext_map_nth blk n j Hj) as [_ Bj].
  pose proof (pid_nth blk n i Hi) as Pi. pose proof (pid_nth blk n j Hj) as Pj. split; intro L.
  - destruct (Nat.lt_ge_cases (nth i (ext_map blk n) 0) (nth j (ext_map blk n) 0)) as [|G]; auto. apply (pid_mono blk) in G. lia.
  - rewrite <- Pi, <- Pj. apply pid_lt; auto.
Qed.
Lemma NoDup_ext blk n : NoDup (ext_map blk n).
Proof. apply NoDup_filter, seq_NoDup. Qed.
Lemma ext_rev_nth blk n t : t < n -> blk t = true -> nth t (ext_rev blk n) 0 = pid blk t.
Proof.
  intros Ht B. unfold ext_rev. rewrite nth_indep with (d' := (fun v => if blk v then length (filter blk (seq 0 v)) else n + 1) 0) by (rewrite map_length, seq_length; auto).
  rewrite (map_nth (fun v => if blk v then length (filter blk (seq 0 v)) else n + 1)), seq_nth by auto. cbn [Nat.add]. rewrite B. reflexivity.
Qed.

(** the extracted edges of a row *)
Definition er (blk : nat -> bool) (es : list half) : list (nat * N) :=
  map (fun h : half => (pid blk (fst (fst h)), snd (fst h))) (filter (fun h : half => blk (fst (fst h))) es).

Definition same_rest (M M' : mg) : Prop :=
  m_part M' = m_part M /\ m_cut M' = m_cut M /\ m_pos M' = m_pos M /\ m_cont M' = m_cont M /\ m_orig M' = m_orig M.

Lemma new_edge_last M s t w M' : m_new_edge M s t w = Some M' -> m_last M' = m_last M.
Proof. intros H. unfold m_new_edge in H. destruct (s <? t); [|injection H as <-; auto]. destruct (t <? m_n M); [|discriminate H]. injection H as <-. reflexivity. Qed.

Lemma ext_edges_ok blk n new k : new < k -> k = length (ext_map blk n) -> forall es M, mvalid M -> m_n M = k -> (forall h, In h es -> fst (fst h) < n) ->
  exists M', ext_edges blk (ext_rev blk n) new es M = Some M' /\ mvalid M' /\ m_n M' = k /\ m_last M' = m_last M /\ same_rest M M' /\
    forall a b, wt (adj (m_rows M')) a b = (wt (adj (m_rows M)) a b + (if Nat.eqb a new && Nat.ltb new b then row_to (er blk es) b else 0)
                                            + (if Nat.eqb b new && Nat.ltb new a then row_to (er blk es) a else 0))%N.
Proof.
  intros Hn Hk. induction es as [|[[t w] r] es IH]; intros M MV NM R.
  - exists M. cbn. split; [auto|]. split; [auto|]. split; [auto|]. split; [auto|]. split; [repeat split|]. intros a b. destruct (_ && _), (_ && _); cbn; lia.
  - cbn [ext_edges]. assert (Ht : t < n) by (apply (R (t, w, r)); left; auto). unfold er. cbn [filter fst]. destruct (blk t) eqn:B.
    2:{ destruct (IH M MV NM) as (M' & E & X); [intros; apply R; right; auto|]. exists M'. auto. }
    rewrite (ext_rev_nth blk n t Ht B). assert (Pt : pid blk t < k) by (rewrite Hk; apply pid_lt; auto).
    assert (ST : exists M1, m_new_edge M new (pid blk t) w = Some M1 /\ mvalid M1 /\ m_n M1 = k /\ m_last M1 = m_last M /\ same_rest M M1 /\
       forall a b, wt (adj (m_rows M1)) a b = (wt (adj (m_rows M)) a b + (if Nat.eqb a new && Nat.ltb new b then if Nat.eqb (pid blk t) b then w else 0 else 0)
                                            + (if Nat.eqb b new && Nat.ltb new a then if Nat.eqb (pid blk t) a then w else 0 else 0))%N).
    { destruct (Nat.lt_ge_cases new (pid blk t)) as [L|L].
      - destruct (new_edge_sums M new (pid blk t) w MV L ltac:(lia)) as (M1 & E1 & MV1 & N1 & C1 & K1 & K2 & K3 & K4 & _ & K5). exists M1.
        split; [exact E1|]. split; [auto|]. split; [lia|]. split; [apply (new_edge_last _ _ _ _ _ E1)|]. split; [repeat split; auto|].
        intros a b. rewrite !wt_ls, C1, pairf_fw by lia. generalize (ls nodead (m_rows M) (fw b) a). intros x.
        destruct (Nat.eqb_spec a new), (Nat.eqb_spec b new), (Nat.eqb_spec b (pid blk t)), (Nat.eqb_spec a (pid blk t)), (Nat.eqb_spec (pid blk t) a), (Nat.eqb_spec (pid blk t) b), (Nat.ltb_spec new a), (Nat.ltb_spec new b); cbn; lia.
      - exists M. unfold m_new_edge. destruct (Nat.ltb_spec new (pid blk t)); [lia|]. split; [auto|]. split; [auto|]. split; [auto|]. split; [auto|]. split; [repeat split|].
        intros a b. destruct (Nat.eqb_spec a new), (Nat.eqb_spec b new), (Nat.eqb_spec (pid blk t) a), (Nat.eqb_spec (pid blk t) b), (Nat.ltb_spec new a), (Nat.ltb_spec new b); cbn; lia. }
    destruct ST as (M1 & E1 & MV1 & N1 & L1 & (S1 & S2 & S3 & S4 & S5) & W1). rewrite E1.
    destruct (IH M1 MV1 N1) as (M' & E & MV' & N' & L' & (T1 & T2 & T3 & T4 & T5) & W'); [intros; apply R; right; auto|].
    exists M'. split; [exact E|]. split; [auto|]. split; [auto|]. split; [congruence|]. split; [repeat split; congruence|].
    intros a b. rewrite W', W1. unfold row_to, er. cbn [map filter fst snd]. destruct (_ && _), (_ && _), (pid blk t =? b), (pid blk t =? a); cbn [sumN snd]; lia.
Qed.

Lemma ext_nodes_ok blk n (rows : list (list half)) k : k = length (ext_map blk n) -> (forall v h, In h (nth v rows []) -> fst (fst h) < n) -> forall vs j M,
  mvalid M -> m_n M = k -> m_last M = j -> j + length vs = k -> (forall i, i < length vs -> nth i vs 0 = nth (j + i) (ext_map blk n) 0) ->
  exists M', ext_nodes blk (ext_rev blk n) rows vs M = Some M' /\ mvalid M' /\ m_n M' = k /\ same_rest M M' /\
    forall a b, wt (adj (m_rows M')) a b = (wt (adj (m_rows M)) a b
        + (if Nat.leb j a && Nat.ltb a b then row_to (er blk (nth (nth a (ext_map blk n) 0%nat) rows [])) b else 0)
        + (if Nat.leb j b && Nat.ltb b a then row_to (er blk (nth (nth b (ext_map blk n) 0%nat) rows [])) a else 0))%N
      \/ k <= a \/ k <= b.
Proof.
  intros Hk HR. induction vs as [|v vs IH]; intros j M MV NM LM HL HV.
  - exists M. split; [reflexivity|]. split; [auto|]. split; [auto|]. split; [repeat split|]. cbn in HL. intros a b.
    destruct (Nat.lt_ge_cases a k), (Nat.lt_ge_cases b k); auto. left. destruct (Nat.leb_spec j a), (Nat.leb_spec j b); try lia. cbn. lia.
  - cbn [length] in HL. destruct (new_node_skip M ltac:(lia)) as (R1 & R2 & R3 & R4 & R5 & R6 & R7 & R8 & R9).
    assert (MV0 : mvalid (new_node M)) by (unfold mvalid in *; rewrite R1, R2, R3; auto).
    assert (NM0 : m_n (new_node M) = k) by (unfold m_n in *; rewrite R1; auto).
    cbn [ext_nodes].
    destruct (ext_edges_ok blk n j k ltac:(lia) Hk (nth v rows []) (new_node M) MV0 NM0 (HR v)) as (M1 & E & MV1 & N1 & L1 & (S1 & S2 & S3 & S4 & S5) & W1).
    rewrite LM, E. destruct (IH (S j) M1) as (M' & E' & MV' & N' & (T1 & T2 & T3 & T4 & T5) & W'); auto; [congruence|lia| |].
    { intros i Hi. specialize (HV (S i) ltac:(cbn; lia)). cbn [nth] in HV. rewrite HV. f_equal. lia. }
    exists M'. split; [auto|]. split; [auto|]. split; [auto|]. split; [repeat split; congruence|].
    intros a b. destruct (W' a b) as [X|X]; [|auto]. left. rewrite X, W1, R1.
    assert (Vj : v = nth j (ext_map blk n) 0). { specialize (HV 0 ltac:(cbn; lia)). cbn [nth] in HV. rewrite Nat.add_0_r in HV. exact HV. }
    destruct (Nat.eqb_spec a j) as [->|], (Nat.eqb_spec b j) as [->|]; rewrite ?Nat.ltb_irrefl, ?Nat.leb_refl, <- ?Vj; cbn [andb].
    + rewrite !andb_false_r. lia.
    + destruct (Nat.leb_spec (S j) j), (Nat.leb_spec (S j) b), (Nat.leb_spec j b), (Nat.ltb_spec j b), (Nat.ltb_spec b j); cbn [andb]; try lia.
    + destruct (Nat.leb_spec (S j) j), (Nat.leb_spec (S j) a), (Nat.leb_spec j a), (Nat.ltb_spec j a), (Nat.ltb_spec a j); cbn [andb]; try lia.
    + destruct (Nat.leb_spec (S j) a), (Nat.leb_spec (S j) b), (Nat.leb_spec j a), (Nat.leb_spec j b); cbn [andb]; try lia.
Qed.

Lemma row_er blk n (rows : list (list half)) u b : (forall h, In h (nth u rows []) -> fst (fst h) < n) -> b < length (ext_map blk n) ->
  row_to (er blk (nth u rows [])) b = wt (adj rows) u (nth b (ext_map blk n) 0).
Proof.
  intros R Hb. rewrite wt_ls, ls_nodead. unfold row_to, er, fw. destruct (ext_map_nth blk n b Hb) as [Lb Bb]. pose proof (pid_nth blk n b Hb) as Pb.
  rewrite sumN_filter, sumN_map, sumN_filter. apply sumN_ext. intros [[t w] r] Hi. specialize (R _ Hi). cbn [fst snd] in *.
  destruct (blk t) eqn:B.
  - destruct (Nat.eqb_spec (pid blk t) b) as [E|E], (Nat.eqb_spec t (nth b (ext_map blk n) 0)) as [E'|E']; auto.
    + exfalso. apply E'. rewrite <- E. symmetry. apply nth_pid; auto.
    + exfalso. apply E. rewrite E'. exact Pb.
  - destruct (Nat.eqb_spec t (nth b (ext_map blk n) 0)) as [E'|E']; auto. subst t. congruence.
Qed.

Theorem m_extract_ok blk G : mvalid G -> let cs := ext_map blk (m_n G) in
  exists M, m_extract blk G = Some M /\ mvalid M /\ m_n M = length cs /\
    (forall a b, a < length cs -> b < length cs -> wt (adj (m_rows M)) a b = if a =? b then 0%N else wt (adj (m_rows G)) (nth a cs 0) (nth b cs 0)) /\
    m_part M = repeat 0 (length cs) /\ m_cut M = repeat false (length cs) /\ m_pos M = seq 0 (length cs) /\ m_cont M = map (fun i => [i]) (seq 0 (length cs)).
Proof.
  intros MV cs. unfold m_extract. fold cs.
  assert (V0 : mvalid (start_construction (length cs)) /\ (forall a b, wt (adj (m_rows (start_construction (length cs)))) a b = 0%N)).
  { assert (R : forall v, nth v (repeat (@nil half) (length cs)) [] = []) by (intro v; apply nth_repeat).
    unfold mvalid, start_construction. cbn [m_rows m_deg m_ne]. split; [split; [|split]|].
    - intros v e t w r H. rewrite R in H. destruct e; discriminate H.
    - split; [rewrite !repeat_length; auto|]. intros v Hv. rewrite R. cbn. rewrite nth_repeat. reflexivity.
    - unfold count_exact. symmetry. apply sumN_zero. intros row Hr. apply repeat_spec in Hr. subst row. reflexivity.
    - intros a b. rewrite wt_ls, ls_nodead, R. reflexivity. }
  destruct V0 as [MV0 W0].
  assert (HR : forall v h, In h (nth v (m_rows G) []) -> fst (fst h) < m_n G).
  { intros v [[t w] r] Hi. apply In_nth_error in Hi as [e He]. destruct MV as [V _]. destruct (V v e t w r He) as [X _]. exact X. }
  destruct (ext_nodes_ok blk (m_n G) (m_rows G) (length cs) eq_refl HR cs 0 (start_construction (length cs)) MV0) as (M & E & MV1 & N1 & (T1 & T2 & T3 & T4 & T5) & W); auto.
  { unfold m_n. cbn. apply repeat_length. }
  rewrite E. exists (m_finish M). split; [reflexivity|]. split; [exact MV1|]. split; [exact N1|]. split; [|cbn in *; auto].
  intros a b Ha Hb. destruct (W a b) as [X|X]; [|lia]. unfold m_finish. cbn [m_rows]. rewrite X, W0. cbn [Nat.leb andb]. fold cs.
  assert (SY : symm (m_n G) (wt (adj (m_rows G)))). { destruct MV as [V _]. pose proof (valid_symm _ V). exact H. }
  pose proof (ext_map_nth blk (m_n G) a Ha) as [La _]. pose proof (ext_map_nth blk (m_n G) b Hb) as [Lb _]. fold cs in La, Lb.
  destruct (Nat.ltb_spec a b), (Nat.ltb_spec b a), (Nat.eqb_spec a b); try lia.
  - unfold cs. rewrite (row_er blk (m_n G) (m_rows G) _ b (HR _) Hb). lia.
  - unfold cs. rewrite (row_er blk (m_n G) (m_rows G) _ a (HR _) Ha). fold cs. rewrite (SY (nth b cs 0)) by auto. lia.
Qed.
