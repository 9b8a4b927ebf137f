(* P_ParCluster.v - proofs about M_ParCluster. *)
From Verif Require Import P_Cut P_Cluster.
From Verif Require Export SpecCluster M_ParCluster P_ParContract4.

(** no edge leaves the set, so none enters it *)
Definition uncut (G : graph) (S : nat -> bool) : Prop := forall x y w, In (y, w) (nth x G []) -> S x = S y.
(** u and v are on the same side of every such set: they are in the same component *)
Definition together (G : graph) (u v : nat) : Prop := forall S, uncut G S -> S u = S v.
Lemma together_refl G u : together G u u. Proof. intros S _. reflexivity. Qed.
Lemma together_trans G u v x : together G u v -> together G v x -> together G u x.
Proof. intros A B S H. rewrite (A S H). auto. Qed.
Lemma together_edge G u v w : In (v, w) (nth u G []) -> together G u v.
Proof. intros I S H. eapply H; eauto. Qed.

Section Labels.
Context (G : graph) (U : undirected G) (coin : nat -> nat -> bool).
Let n := length G.
Definition cur_ok (c : option (nat * list (nat * N) * nat * N)) : Prop :=
  match c with None => True | Some (v, es, mb, _) => v < n /\ (forall t w, In (t, w) es -> In (t, w) (nth v G [])) /\ mb < n /\ together G v mb end.
Definition thr_ok (t : lth) : Prop := (forall v, In v (q_todo t) -> v < n) /\ cur_ok (q_cur t) /\ length (q_wgt t) = n.
Record linv (s : lps) : Prop := {
  l_len : length (p_cl s) = n;
  l_cl : forall v, v < n -> nth v (p_cl s) 0 < n /\ together G v (nth v (p_cl s) 0);
  l_thr : forall t, In t (p_thr s) -> thr_ok t }.
Lemma In_upd_g {A} (l : list A) i x y : In y (upd l i x) -> y = x \/ In y l.
Proof. revert i. induction l as [|z l IH]; intros [|i] I; cbn in *; auto; destruct I as [<-|I]; auto. destruct (IH i I); auto. Qed.
Lemma nth_error_some_nth {A} (l : list A) i d : i < length l -> nth_error l i = Some (nth i l d).
Proof. intro H. apply nth_error_nth'. auto. Qed.
Lemma pl_edge_ok c v block w wgt used mb mv : block < length wgt -> exists wgt' used' mb' mv', pl_edge c v block w wgt used mb mv = Some (wgt', used', mb', mv') /\ length wgt' = length wgt /\ (mb' = mb \/ mb' = block).
Proof.
  intro H. unfold pl_edge. rewrite (nth_error_some_nth wgt block (0, 0%N)) by auto. destruct (nth block wgt (0, 0%N)) as [o x]. set (x' := (_ mod _)%N).
  destruct (mv <? x')%N; [|destruct (x' =? mv)%N]; do 4 eexists; (split; [reflexivity|]); rewrite upd_length; split; auto. destruct (c used); auto.
Qed.
Definition weight (t : lth) : list unit :=
  repeat tt (match q_cur t with None => 0 | Some (_, es, _, _) => S (length es) end + fold_right Nat.add 0 (map (fun v => 2 + length (nth v G [])) (q_todo t))).
Lemma pl_step_ok s i : linv s -> exists s', pl_step G coin s i = Some s' /\ linv s' /\ length (p_thr s') = length (p_thr s) /\
  (forall t, nth_error (p_thr s) i = Some t -> (q_todo t = [] /\ q_cur t = None) \/ exists t', p_thr s' = upd (p_thr s) i t' /\ length (weight t') < length (weight t)).
Proof.
  intros I. pose proof I as [L C T]. unfold pl_step. destruct (nth_error (p_thr s) i) as [t|] eqn:E; [|exists s; split; [auto|]; split; [auto|]; split; [auto|]; intros t Q; discriminate Q].
  assert (It : In t (p_thr s)) by (eapply nth_error_In; eauto). destruct (T t It) as (T1 & T2 & T3). destruct (q_cur t) as [[[[v es] mb] mv]|] eqn:Qc.
  - destruct T2 as (V & Es & Mb & Tg). destruct es as [|[tg w] es].
    + destruct (Nat.ltb_spec v (length (p_cl s))); [|lia]. eexists. split; [reflexivity|]. split; [constructor; cbn [p_cl p_thr]|cbn [p_thr]; split; [apply upd_length|]].
      * rewrite upd_length. auto.
      * intros x Hx. destruct (Nat.eq_dec x v) as [->|Nx]; [rewrite nth_upd_eq by auto; auto|rewrite nth_upd_neq by auto; auto].
      * intros t' It'. apply In_upd_g in It' as [->|It']; [|auto]. split; [auto|]. split; [exact Logic.I|auto].
      * intros t0 Q. injection Q as <-. right. eexists. split; [reflexivity|]. unfold weight. cbn [q_cur q_todo]. rewrite Qc, !repeat_length. cbn [length]. lia.
    + assert (Itg : In (tg, w) (nth v G [])) by (apply Es; left; auto). destruct (proj1 U v tg w Itg) as [Ht _]. fold n in Ht. destruct (C tg Ht) as [Cb Ct]. rewrite (nth_error_some_nth (p_cl s) tg 0) by lia.
      destruct (pl_edge_ok (coin i) v (nth tg (p_cl s) 0) w (q_wgt t) (q_used t) mb mv) as (wg & us & mb' & mv' & Ee & Lw & M); [lia|]. rewrite Ee. eexists. split; [reflexivity|]. split; [constructor; cbn [p_cl p_thr]; auto|cbn [p_thr]; split; [apply upd_length|]].
      * intros t' It'. apply In_upd_g in It' as [->|It']; [|auto]. split; [auto|]. cbn [q_cur q_wgt]. split; [|lia]. split; [auto|]. split; [intros; apply Es; right; auto|]. destruct M as [->| ->]; [auto|]. split; [auto|]. eapply together_trans; [eapply together_edge; eauto|auto].
      * intros t0 Q. injection Q as <-. right. eexists. split; [reflexivity|]. unfold weight. cbn [q_cur q_todo]. rewrite Qc, !repeat_length. cbn [length]. lia.
  - destruct (q_todo t) as [|v r] eqn:Qt; [exists s; split; [auto|]; split; [auto|]; split; [auto|]; intros t0 Q; injection Q as <-; auto|].
    assert (V : v < n) by (apply T1; left; auto). rewrite (nth_error_some_nth (p_cl s) v 0) by lia. rewrite (nth_error_some_nth G v []) by auto. eexists. split; [reflexivity|]. split; [constructor; cbn [p_cl p_thr]; auto|cbn [p_thr]; split; [apply upd_length|]].
    + intros t' It'. apply In_upd_g in It' as [->|It']; [|auto]. split; [intros; apply T1; right; auto|]. cbn [q_cur q_wgt]. split; [|auto]. split; [auto|]. split; [auto|]. apply C. auto.
    + intros t0 Q. injection Q as <-. right. eexists. split; [reflexivity|]. unfold weight. cbn [q_cur q_todo]. rewrite Qc, Qt, !repeat_length. cbn [map fold_right]. lia.
Qed.
Lemma pl_run_ok : forall sched s, linv s -> exists s', pl_run G coin s sched = Some s' /\ linv s' /\ length (p_thr s') = length (p_thr s).
Proof.
  induction sched as [|i sched IH]; intros s I; cbn [pl_run]; [exists s; auto|]. destruct (pl_step_ok s i I) as (s1 & -> & I1 & L1 & _). destruct (IH s1 I1) as (s' & E & I' & L'). exists s'. split; [auto|]. split; [auto|lia].
Qed.
Definition busy (t : lth) : bool := match q_cur t, q_todo t with None, [] => false | _, _ => true end.
Lemma pl_more : forall m s, length (flat_map weight (p_thr s)) <= m -> linv s -> exists sched s', pl_run G coin s sched = Some s' /\ pl_done s'.
Proof.
  induction m as [|m IH]; intros s Le I; destruct (first_open busy (mk_lth [] None [] 0) eq_refl (p_thr s)) as [F|(i & Hi & F)].
  1, 3: (exists [], s; split; [reflexivity|]; intros t It; destruct (In_nth _ _ (mk_lth [] None [] 0) It) as (i & Hi & <-); specialize (F i); unfold busy in F; destruct (q_cur _) as [|], (q_todo _) as [|? ?]; try discriminate F; auto).
  - exfalso. destruct (flat_upd weight (p_thr s) i (mk_lth [] None [] 0) Hi) as (rest & R & _). apply Permutation_length in R. rewrite app_length in R. unfold weight in R at 2. rewrite repeat_length in R. unfold busy in F.
    destruct (q_cur (nth i (p_thr s) _)) as [[[[? ?] ?] ?]|]; [lia|]. destruct (q_todo (nth i (p_thr s) _)); [discriminate F|cbn [map fold_right] in R; lia].
  - destruct (pl_step_ok s i I) as (s1 & E & I1 & _ & W). destruct (W _ (nth_error_some_nth (p_thr s) i (mk_lth [] None [] 0) Hi)) as [[A B]|(t & Ht & Lt)]; [unfold busy in F; rewrite A, B in F; discriminate F|].
    destruct (flat_upd weight (p_thr s) i (mk_lth [] None [] 0) Hi) as (rest & R1 & R2). specialize (R2 t). apply Permutation_length in R1, R2. rewrite app_length in R1, R2.
    destruct (IH s1) as (sched & s' & E' & D); [rewrite Ht; lia|auto|]. exists (i :: sched), s'. cbn [pl_run]. rewrite E. auto.
Qed.
Lemma pl_init_ok assign : (forall v, In v (concat assign) -> v < n) -> linv (pl_init G assign).
Proof.
  intro H. constructor; cbn [pl_init p_cl p_thr].
  - apply seq_length.
  - intros v Hv. rewrite seq_nth by auto. split; [lia|apply together_refl].
  - intros t I. apply in_map_iff in I as (vs & <- & I). split; [intros v J; apply H, in_concat; exists vs; auto|]. split; [exact Logic.I|apply repeat_length].
Qed.
Lemma pl_again_ok s assign : linv s -> (forall v, In v (concat assign) -> v < n) -> linv (pl_again s assign).
Proof.
  intros [L C T] H. constructor; cbn [pl_again p_cl p_thr]; auto.
  intros t I. apply in_map_iff in I as ([t0 vs] & <- & I). cbn [fst snd]. split; [cbn [q_todo]; intros v J; apply H, in_concat; exists vs; split; [eapply in_combine_r; eauto|auto]|]. split; [exact Logic.I|]. apply (T t0). eapply in_combine_l; eauto.
Qed.
End Labels.

(** ** findTrivialCuts never gets to its change *)
Lemma pt_block_zero G mapping p : forall members i idx bd, exists bd', pt_block G mapping p i (0%N, idx) bd members = ((0%N, idx), bd').
Proof.
  induction members as [|v ms IH]; intros i idx bd; cbn [pt_block]; [exists bd; auto|]. destruct (fold_left (pt_edge mapping p) (nth v G []) (0%N, bd)) as [nd bd1]. cbn [fst]. destruct (N.ltb_spec nd 0); [lia|]. apply IH.
Qed.
Lemma pt_round_id G s p : pt_round G s p = s.
Proof.
  destruct s as [[mapping rev] target]. unfold pt_round. destruct (_ <? _); [|auto]. destruct (pt_block_zero G mapping p (nth p rev []) 0 0 0%N) as (bd & ->). reflexivity.
Qed.
Lemma find_trivial_par_id G mapping rev cut order : find_trivial_par G mapping rev cut order = (mapping, rev).
Proof. unfold find_trivial_par. assert (E : forall l s, fold_left (pt_round G) l s = s) by (induction l as [|p l IH]; intro s; cbn; [auto|rewrite pt_round_id; auto]). rewrite E. reflexivity. Qed.

(** ** the cuts of weight zero stay *)
Lemma lift_uncut G labels mapping rev : clusters (length G) mapping rev -> (forall v, v < length G -> together G v (nth v labels 0)) ->
  (forall x y, x < length G -> y < length G -> (nth x mapping 0 = nth y mapping 0 <-> nth x labels 0 = nth y labels 0)) ->
  forall S, uncut G S -> exists S', forall v, v < length G -> S' (nth v mapping 0) = S v.
Proof.
  intros [L [O1 O2] R] T Q S H. exists (fun p => S (nth 0 (nth p rev []) 0)). intros v Hv. set (p := nth v mapping 0). assert (Hp : p < length rev) by (apply O1; auto).
  assert (I : In (nth 0 (nth p rev []) 0) (nth p rev [])). { rewrite R by auto. apply nth_In. assert (Iv : In v (filter (fun v => nth v mapping 0 =? p) (seq 0 (length G)))) by (apply filter_In; split; [apply in_seq; lia|apply Nat.eqb_refl]). destruct (filter _ _); [destruct Iv|cbn; lia]. }
  rewrite R in I at 2 by auto. apply filter_In in I as [I E]. apply in_seq in I. apply Nat.eqb_eq in E. set (r := nth 0 (nth p rev []) 0) in *. assert (Hr : r < length G) by lia.
  rewrite (T r Hr S H), (T v Hv S H). f_equal. apply Q; auto.
Qed.
