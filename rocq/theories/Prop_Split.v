(* Prop_Split.v - property C40: the solutions of the components put together. *)
From Coq Require Import Permutation.
From Verif Require Import SpecMutable SpecMulti SpecHop P_Mutable P_MutableIO P_Split P_Split2 P_Split3 P_Split4 M_Split P_MultiCheck Prop_Mutable Prop_Kernel Prop_Scc.

(** neighbours by edges of positive weight *)
Definition pos_nb (n : nat) (W : wfun) : list (list nat) := map (fun u => filter (fun v => negb (W u v =? 0)%N) (seq 0 n)) (seq 0 n).
Definition joined (G : mg) (u v : nat) : Prop := reach (pos_nb (m_n G) (wt (adj (m_rows G)))) u v.

Lemma in_pos_nb n W u v : In v (nth u (pos_nb n W) []) <-> u < n /\ v < n /\ W u v <> 0%N.
Proof.
  unfold pos_nb. destruct (Nat.lt_ge_cases u n) as [H|H].
  - erewrite nth_indep; [|rewrite map_length, seq_length; exact H]. rewrite (map_nth (fun u => filter (fun v => negb (W u v =? 0)%N) (seq 0 n)) (seq 0 n) 0), seq_nth, filter_In, in_seq by auto. cbn [Nat.add].
    destruct (N.eqb_spec (W u v) 0); cbn [negb]; intuition (try lia; try congruence).
  - rewrite nth_overflow by (rewrite map_length, seq_length; lia). cbn. intuition lia.
Qed.
Lemma row_nonzero v (row : list half) : sumN snd (filter (fun e => fst e =? v) (map (fun h : half => (fst (fst h), snd (fst h))) row)) <> 0%N <-> exists w r, In (v, w, r) row /\ w <> 0%N.
Proof.
  induction row as [|[[t w] r] row IH]; cbn [map filter].
  - split; [intro H; exfalso; apply H; reflexivity|intros (w & r & [] & _)].
  - cbn [fst snd]. destruct (Nat.eqb_spec t v) as [->|NE].
    + cbn [sumN snd]. split.
      * intro H. destruct (N.eq_dec w 0) as [E|E]; [|exists w, r; split; [left; auto|auto]]. destruct (proj1 IH) as (w' & r' & A & B); [lia|]. exists w', r'. split; [right; auto|auto].
      * intros (w' & r' & [A|A] & B); [injection A as -> ->; lia|]. assert (X := proj2 IH (ex_intro _ w' (ex_intro _ r' (conj A B)))). lia.
    + rewrite IH. split; intros (w' & r' & A & B); exists w', r'; (split; [|auto]); [right; auto|]. destruct A as [A|A]; [congruence|auto].
Qed.
Lemma wt_nonzero R u v : wt (adj R) u v <> 0%N <-> exists w r, In (v, w, r) (nth u R []) /\ w <> 0%N.
Proof. unfold wt, adj. rewrite nth_map_nil by reflexivity. apply row_nonzero. Qed.
Lemma in_residual G u v : In v (nth u (residual None (no_flow G)) []) <-> exists w r, In (v, w, r) (nth u (m_rows G) []) /\ w <> 0%N.
Proof.
  unfold residual, no_flow. rewrite map_map. set (f := fun x : list half => _). rewrite (nth_map_nil f) by reflexivity. unfold f. rewrite in_map_iff. split.
  - intros (e & <- & H). apply filter_In in H as [H E]. apply in_map_iff in H as ([[t w] r] & <- & H). cbn in E |- *. exists w, r. split; [auto|]. intros ->. discriminate E.
  - intros (w & r & H & E). exists (mk_fe v w 0 0). split; [reflexivity|]. apply filter_In. split; [apply in_map_iff; exists (v, w, r); auto|]. cbn. destruct w; [congruence|reflexivity].
Qed.

Lemma hop_ext nb nb' u v j : (forall a b, In b (nth a nb []) -> In b (nth a nb' [])) -> hop nb u v j -> hop nb' u v j.
Proof. intros H. induction 1 as [|x y j _ IH E]; [constructor|]. econstructor; [exact IH|apply H; exact E]. Qed.

(** ** the split never fails, and its components are those of the edges of positive weight *)
Lemma split_ok ord k tm G : mvalid G -> length tm = m_n G -> (forall v t, nth v tm None = Some t -> t < k) -> (forall l, Permutation (ord l) l) ->
  exists s comp cc, split ord k tm G = Some (s, comp) /\ length comp = m_n G /\
    (forall v, v < m_n G -> exists c, nth v comp None = Some c /\ c < cc) /\
    (forall c, c < cc -> exists v, v < m_n G /\ nth v comp None = Some c) /\
    (forall u v, u < m_n G -> v < m_n G -> (nth u comp None = nth v comp None <-> joined G u v)) /\
    sinv k (m_n G) cc tm comp G cc s.
Proof.
  intros V L T OP. pose proof (proj1 V) as VR.
  assert (TG : forall u v w r, In (v, w, r) (nth u (m_rows G) []) -> v < m_n G).
  { intros u v w r H. destruct (Nat.lt_ge_cases u (length (m_rows G))) as [A|A]; [|rewrite nth_overflow in H by auto; destruct H].
    pose proof (valid_undirected _ VR) as [B _]. unfold m_n. rewrite <- (adj_length (m_rows G)). apply (B u v w). unfold adj. rewrite nth_map_nil by reflexivity. apply in_map_iff. exists (v, w, r). auto. }
  assert (LR : length (res_rows None (no_flow G)) = m_n G) by (unfold res_rows, no_flow, m_n; rewrite !map_length; auto).
  destruct (C45_components scc_new (res_rows None (no_flow G)) so_new) as (sc & E & LC & A & B & C).
  { rewrite present_res, LR. intros u v H. apply in_residual in H as (w & r & H & _). apply (TG _ _ _ _ H). }
  rewrite LR in *. rewrite present_res in C.
  assert (EQ : forall u v, In v (nth u (residual None (no_flow G)) []) <-> In v (nth u (pos_nb (m_n G) (wt (adj (m_rows G)))) [])).
  { intros u v. rewrite in_residual, in_pos_nb, wt_nonzero. split; [|intros (_ & _ & H); auto]. intros (w & r & H & N). split; [|split; [apply (TG _ _ _ _ H)|exists w, r; auto]].
    destruct (Nat.lt_ge_cases u (m_n G)) as [D|D]; [auto|]. rewrite nth_overflow in H by exact D. destruct H. }
  destruct (split_loops_ok k (m_n G) (s_cc sc) tm (s_comp sc) G ord L T LC A V eq_refl OP) as (tip & num & s & E1 & E2 & I).
  exists s, (s_comp sc), (s_cc sc). unfold split. rewrite E, E1, E2. split; [reflexivity|]. split; [auto|]. split; [auto|]. split; [auto|]. split; [|exact I].
  intros u v Hu Hv. rewrite (C u v Hu Hv). unfold same_scc, joined, reach. split.
  - intros [(j & H) _]. exists j. eapply hop_ext; [|exact H]. intros a b. apply EQ.
  - intros (j & H). split; [exists j; eapply hop_ext; [|exact H]; intros a b; apply EQ|].
    clear - H EQ VR. revert v H. induction j as [|j IH]; intros v H; inversion H as [|x y j' H' E]; [exists 0; constructor|]. destruct (IH _ H') as (i & K).
    apply in_pos_nb in E as (D1 & D2 & D3). assert (D4 : In x (nth v (residual None (no_flow G)) [])). { apply EQ, in_pos_nb. split; [auto|]. split; [auto|]. rewrite <- (valid_symm _ VR x v); auto. }
    assert (TR : forall a b c p q, hop (residual None (no_flow G)) a b p -> hop (residual None (no_flow G)) b c q -> hop (residual None (no_flow G)) a c (p + q)).
    { intros a b c p q X Y. induction Y as [|y' z q Y IHY Ez]; [rewrite Nat.add_0_r; auto|]. rewrite Nat.add_succ_r. econstructor; [exact IHY|exact Ez]. }
    exists (1 + i). eapply TR; [|exact K]. econstructor; [constructor|exact D4].
Qed.

(** two different terminals in component c *)
Definition two_terms (n : nat) (tm comp : list (option nat)) (c : nat) : Prop :=
  exists u v t t', u < n /\ v < n /\ nth u comp None = Some c /\ nth v comp None = Some c /\ nth u tm None = Some t /\ nth v tm None = Some t' /\ t <> t'.
Lemma many_two k n tm comp c : (forall v t, nth v tm None = Some t -> t < k) -> (many k n tm comp c = true <-> two_terms n tm comp c).
Proof.
  intro T. unfold many. rewrite Nat.leb_le. split.
  - intro L. pose proof (NoDup_filter (hasb n tm comp c) (seq_NoDup k 0)) as ND. fold (terms k n tm comp c) in ND. pose proof (terms_In k n tm comp c) as I.
    destruct (terms k n tm comp c) as [|t [|t' l]]; cbn in L; try lia. destruct (proj1 (I t)) as [_ A]; [left; auto|]. destruct (proj1 (I t')) as [_ B]; [right; left; auto|].
    apply hasb_iff in A as (u & A1 & A2 & A3), B as (v & B1 & B2 & B3). exists u, v, t, t'. repeat (split; [assumption|]). apply NoDup_cons_iff in ND as [X _]. intros ->. apply X. left; auto.
  - intros (u & v & t & t' & Hu & Hv & Cu & Cv & Tu & Tv & NE).
    assert (A : In t (terms k n tm comp c)). { apply terms_In. split; [eapply T; eauto|]. apply hasb_iff. exists u. auto. }
    assert (B : In t' (terms k n tm comp c)). { apply terms_In. split; [eapply T; eauto|]. apply hasb_iff. exists v. auto. }
    destruct (terms k n tm comp c) as [|a [|b l]]; cbn in *; intuition (try congruence; try lia).
Qed.
Lemma many_dec k n tm comp cc : (forall c c', c' <= c -> c < cc -> many k n tm comp c = true -> many k n tm comp c' = true) \/ exists c c', c' < c /\ c < cc /\ many k n tm comp c = true /\ many k n tm comp c' = false.
Proof.
  destruct (existsb (fun c => many k n tm comp c && existsb (fun c' => negb (many k n tm comp c')) (seq 0 c)) (seq 0 cc)) eqn:E.
  - right. apply existsb_exists in E as (c & Hc & E). apply in_seq in Hc. apply andb_prop in E as [E1 E2]. apply existsb_exists in E2 as (c' & Hc' & E2). apply in_seq in Hc'. apply negb_true_iff in E2. exists c, c'. repeat (split; [lia|]). auto.
  - left. intros c c' L Hc M. destruct (many k n tm comp c') eqn:M'; [auto|]. exfalso. apply Bool.not_true_iff_false in E. apply E. apply existsb_exists. exists c. rewrite in_seq. split; [lia|]. rewrite M. cbn [andb].
    apply existsb_exists. exists c'. rewrite M', in_seq. destruct (Nat.eq_dec c' c) as [->|]; [congruence|]. split; [lia|reflexivity].
Qed.

(** the solver solves the problems of this run *)
Definition solver_ok (solve : nat -> prob -> option (list nat * N)) (s : sst) : Prop :=
  forall p q, nth_error (ss_probs s) p = Some q -> exists r, solve p q = Some r /\ solved q r.

Definition cost (G : mg) (f : nat -> nat) : N := mtcost (m_n G) (wt (adj (m_rows G))) f.
(** val is the least cost of an assignment that respects the terminals *)
Definition optimal (G : mg) (k : nat) (tm : list (option nat)) (val : N) : Prop :=
  (exists f, fits (m_n G) k tm f /\ cost G f = val) /\ forall f, fits (m_n G) k tm f -> (val <= cost G f)%N.
Definition terminals_ok (G : mg) (k : nat) (tm : list (option nat)) : Prop := 0 < k /\ length tm = m_n G /\ forall v t, nth v tm None = Some t -> t < k.

(** ** the value: the sum of the optimal values of the components is optimal for the graph *)
Theorem C40_value_partial : forall ord solve k tm G, mvalid G -> terminals_ok G k tm -> (forall l, Permutation (ord l) l) ->
  exists s comp, split ord k tm G = Some (s, comp) /\ (solver_ok solve s -> exists val, multicut ord solve false k tm G = Some (val, None) /\ optimal G k tm val).
Proof.
  intros ord solve k tm G V (Hk & L & T) OP. destruct (split_ok ord k tm G V L T OP) as (s & comp & cc & E & LC & A & B & C & I). exists s, comp. split; [exact E|]. intro SO.
  destruct (solve_all_ok solve (ss_probs s) 0 SO) as (rs & E1 & F). pose proof (proj1 I) as HP.
  assert (HX : forall u v, u < m_n G -> v < m_n G -> nth u comp None <> nth v comp None -> wt (adj (m_rows G)) u v = 0%N).
  { intros u v Hu Hv N. destruct (N.eq_dec (wt (adj (m_rows G)) u v) 0) as [Z|Z]; [auto|]. exfalso. apply N, C; auto. exists 1. econstructor; [constructor|]. apply in_pos_nb. auto. }
  destruct (sum_optimal k (m_n G) cc tm comp G L T LC A eq_refl HX (ss_probs s) rs HP F Hk) as [S1 S2].
  exists (sumN snd rs). unfold multicut. rewrite E, E1. split; [reflexivity|]. split; [|exact S2].
  exists (joint k (m_n G) tm comp rs). split; [|exact S1]. eapply joint_fits; eauto.
Qed.
Print Assumptions C40_value_partial.

(** ** the solution: if no component without two terminals is numbered before one with two, the written solution
    respects the terminals and has the optimal cost; otherwise solutions is read out of range *)
Theorem C40_solution_partial : forall ord solve k tm G, mvalid G -> terminals_ok G k tm -> (forall l, Permutation (ord l) l) ->
  exists s comp, split ord k tm G = Some (s, comp) /\ (forall u v, u < m_n G -> v < m_n G -> (nth u comp None = nth v comp None <-> joined G u v)) /\ (solver_ok solve s ->
    ((forall c v c', two_terms (m_n G) tm comp c -> v < m_n G -> nth v comp None = Some c' -> c' <= c -> two_terms (m_n G) tm comp c') ->
      exists val g, multicut ord solve true k tm G = Some (val, Some g) /\ length g = m_n G /\ fits (m_n G) k tm (fun v => nth v g 0) /\
        cost G (fun v => nth v g 0) = val /\ optimal G k tm val) /\
    (forall c v c', two_terms (m_n G) tm comp c -> v < m_n G -> nth v comp None = Some c' -> c' < c -> ~ two_terms (m_n G) tm comp c' -> multicut ord solve true k tm G = None)).
Proof.
  intros ord solve k tm G V (Hk & L & T) OP. destruct (split_ok ord k tm G V L T OP) as (s & comp & cc & E & LC & A & B & C & I). exists s, comp. split; [exact E|]. split; [exact C|]. intro SO.
  destruct (solve_all_ok solve (ss_probs s) 0 SO) as (rs & E1 & F). pose proof (proj1 I) as HP.
  assert (HX : forall u v, u < m_n G -> v < m_n G -> nth u comp None <> nth v comp None -> wt (adj (m_rows G)) u v = 0%N).
  { intros u v Hu Hv N. destruct (N.eq_dec (wt (adj (m_rows G)) u v) 0) as [Z|Z]; [auto|]. exfalso. apply N, C; auto. exists 1. econstructor; [constructor|]. apply in_pos_nb. auto. }
  destruct (sum_optimal k (m_n G) cc tm comp G L T LC A eq_refl HX (ss_probs s) rs HP F Hk) as [S1 S2].
  assert (JF : fits (m_n G) k tm (joint k (m_n G) tm comp rs)) by exact (joint_fits k (m_n G) cc tm comp G L T LC A eq_refl HX (ss_probs s) rs HP F Hk).
  assert (TC : forall c, two_terms (m_n G) tm comp c -> c < cc). { intros c (u & v & t & t' & Hu & _ & Cu & _). destruct (A u Hu) as (c' & X & Y). congruence. }
  split.
  - intros PF. assert (PF' : forall c c', c' <= c -> c < cc -> many k (m_n G) tm comp c = true -> many k (m_n G) tm comp c' = true).
    { intros c c' Lc Hcc M. apply many_two; [auto|]. apply many_two in M; [|auto]. destruct (B c' ltac:(lia)) as (v & Hv & Cv). eapply PF; eauto. }
    pose proof (assemble_ok k (m_n G) cc tm comp G L T LC A eq_refl HX (ss_probs s) rs HP F Hk s I eq_refl PF' (seq 0 (m_n G))) as AS. specialize (AS ltac:(intros i Hi; apply in_seq in Hi; lia)).
    set (g := map (joint k (m_n G) tm comp rs) (seq 0 (m_n G))) in *.
    assert (NG : forall v, v < m_n G -> nth v g 0 = joint k (m_n G) tm comp rs v).
    { intros v Hv. unfold g. erewrite nth_indep; [|rewrite map_length, seq_length; auto]. rewrite (map_nth (joint k (m_n G) tm comp rs) (seq 0 (m_n G)) 0), seq_nth by auto. reflexivity. }
    assert (CG : cost G (fun v => nth v g 0) = sumN snd rs).
    { rewrite <- S1. unfold cost, mtcost. apply bsum_ext. intros u Hu. apply bsum_ext. intros v Hv. rewrite !NG by auto. reflexivity. }
    assert (FG : fits (m_n G) k tm (fun v => nth v g 0)). { destruct JF as [J1 J2]. split; [intros v Hv; rewrite NG by auto; auto|intros v t Hv Et; rewrite NG by auto; eauto]. }
    exists (sumN snd rs), g. unfold multicut. rewrite E, E1, AS. split; [reflexivity|]. split; [unfold g; rewrite map_length, seq_length; auto|]. split; [exact FG|]. split; [exact CG|].
    split; [exists (fun v => nth v g 0); auto|exact S2].
  - intros c v c' M Hv Cv Lc M'. pose proof (TC c M) as Hcc. apply (many_two k (m_n G) tm comp c T) in M. assert (M2 : many k (m_n G) tm comp c' = false). { apply Bool.not_true_is_false. intro X. apply M'. exact (proj1 (many_two k (m_n G) tm comp c' T) X). }
    unfold multicut. rewrite E, E1, (assemble_none k (m_n G) cc tm comp G L T LC A eq_refl HX (ss_probs s) rs HP F Hk s I c c' Lc Hcc M M2). reflexivity.
Qed.
Print Assumptions C40_solution_partial.

(** ** in a connected graph the solution is always written, and it is optimal *)
Theorem C40_connected_partial : forall ord solve k tm G, mvalid G -> terminals_ok G k tm -> (forall l, Permutation (ord l) l) ->
  (forall u v, u < m_n G -> v < m_n G -> joined G u v) ->
  exists s comp, split ord k tm G = Some (s, comp) /\ (solver_ok solve s -> exists val g, multicut ord solve true k tm G = Some (val, Some g) /\ length g = m_n G /\
    fits (m_n G) k tm (fun v => nth v g 0) /\ cost G (fun v => nth v g 0) = val /\ optimal G k tm val).
Proof.
  intros ord solve k tm G V T OP J. destruct (C40_solution_partial ord solve k tm G V T OP) as (s & comp & E & C & H). exists s, comp. split; [exact E|]. intro SO. apply (proj1 (H SO)).
  intros c v c' M Hv Cv _. destruct M as (u & u2 & t & t' & Hu & R). assert (X : nth u comp None = nth v comp None) by (apply C; auto). destruct R as (R1 & R2 & R3 & R4). rewrite X, Cv in R2. injection R2 as <-. exists u, u2, t, t'. split; [exact Hu|]. split; [exact R1|]. split; [rewrite X; exact Cv|]. split; [exact R3|exact R4].
Qed.
Print Assumptions C40_connected_partial.

(** ** the full claim *)
Definition C40_statement : Prop := forall ord solve k tm G, mvalid G -> terminals_ok G k tm -> (forall l, Permutation (ord l) l) ->
  exists s comp, split ord k tm G = Some (s, comp) /\ (solver_ok solve s -> exists val g, multicut ord solve true k tm G = Some (val, Some g) /\ length g = m_n G /\
    fits (m_n G) k tm (fun v => nth v g 0) /\ cost G (fun v => nth v g 0) = val /\ optimal G k tm val).

(** the solver contract, decided on small problems *)
Definition local_fitsb (q : prob) (l : list nat) : bool :=
  forallb (fun x => nth x l 0 <? length (q_terms q)) (seq 0 (m_n (q_orig q))) &&
  forallb (fun i => forallb (fun x => negb (nth x (m_pos (q_graph q)) 0 =? nth (nth i (q_terms q) 0) (m_pos (q_graph q)) 0) || (nth x l 0 =? i)) (seq 0 (m_n (q_orig q)))) (seq 0 (length (q_terms q))).
Definition solvedb (q : prob) (r : list nat * N) : bool :=
  (length (fst r) =? m_n (q_orig q)) && local_fitsb q (fst r) && N.eqb (mtcost (m_n (q_orig q)) (wt (adj (m_rows (q_orig q)))) (fun x => nth x (fst r) 0)) (snd r) &&
  forallb (fun l => negb (local_fitsb q l) || N.leb (snd r) (mtcost (m_n (q_orig q)) (wt (adj (m_rows (q_orig q)))) (fun x => nth x l 0))) (assigns (m_n (q_orig q)) (length (q_terms q))).

Lemma local_fitsb_ok q l : local_fitsb q l = true <-> local_fits q (fun x => nth x l 0).
Proof.
  unfold local_fitsb, local_fits. rewrite andb_true_iff, !forallb_forall. split; intros [A B]; split.
  - intros x Hx. apply Nat.ltb_lt, A, in_seq. lia.
  - intros i x Hi Hx E. specialize (B i ltac:(apply in_seq; lia)). rewrite forallb_forall in B. specialize (B x ltac:(apply in_seq; lia)). rewrite E, Nat.eqb_refl in B. apply Nat.eqb_eq. exact B.
  - intros x Hx. apply in_seq in Hx. apply Nat.ltb_lt, A. lia.
  - intros i Hi. apply in_seq in Hi. apply forallb_forall. intros x Hx. apply in_seq in Hx. destruct (Nat.eqb_spec (nth x (m_pos (q_graph q)) 0) (nth (nth i (q_terms q) 0) (m_pos (q_graph q)) 0)) as [E|]; [|reflexivity]. cbn [negb orb]. apply Nat.eqb_eq, B; auto; lia.
Qed.
Lemma solvedb_ok q r : solvedb q r = true -> solved q r.
Proof.
  unfold solvedb. intro H. apply andb_prop in H as [H M]. apply andb_prop in H as [H E]. apply andb_prop in H as [L F]. apply Nat.eqb_eq in L. apply local_fitsb_ok in F. apply N.eqb_eq in E.
  split; [exact L|]. split; [exact F|]. split; [exact E|]. intros f Hf. rewrite forallb_forall in M. set (n := m_n (q_orig q)) in *. set (l := map f (seq 0 n)).
  assert (Q : forall v, v < n -> nth v l 0 = f v). { intros v Hv. unfold l. rewrite (nth_indep _ 0 (f 0)) by (rewrite map_length, seq_length; auto). rewrite map_nth, seq_nth by auto. reflexivity. }
  assert (Lf : local_fits q (fun x => nth x l 0)). { destruct Hf as [A B]. split; [intros x Hx; rewrite Q by auto; auto|intros i x Hi Hx X; rewrite Q by auto; eauto]. }
  assert (X : In l (assigns n (length (q_terms q)))). { apply assigns_in; [unfold l; rewrite map_length, seq_length; auto|]. intros x Hx. unfold l in Hx. apply in_map_iff in Hx as (v & <- & Hv). apply in_seq in Hv. apply Hf. fold n. lia. }
  specialize (M l X). rewrite (proj2 (local_fitsb_ok q l) Lf) in M. cbn [negb orb] in M. apply N.leb_le in M.
  replace (mtcost n (wt (adj (m_rows (q_orig q)))) f) with (mtcost n (wt (adj (m_rows (q_orig q)))) (fun x => nth x l 0)); [exact M|].
  unfold mtcost. apply bsum_ext. intros u Hu. apply bsum_ext. intros v Hv. rewrite !Q by auto. reflexivity.
Qed.
(** a solver by exhaustive search *)
Definition brute (p : nat) (q : prob) : option (list nat * N) :=
  fold_left (fun best l => if local_fitsb q l then
      let c := mtcost (m_n (q_orig q)) (wt (adj (m_rows (q_orig q)))) (fun x => nth x l 0) in
      match best with Some (l', c') => if (c <? c')%N then Some (l, c) else best | None => Some (l, c) end else best)
    (assigns (m_n (q_orig q)) (length (q_terms q))) None.
Definition solver_okb (solve : nat -> prob -> option (list nat * N)) (s : sst) : bool :=
  forallb (fun p => match nth_error (ss_probs s) p with Some q => match solve p q with Some r => solvedb q r | None => false end | None => true end) (seq 0 (length (ss_probs s))).
Lemma solver_okb_ok solve s : solver_okb solve s = true -> solver_ok solve s.
Proof.
  intros H p q E. unfold solver_okb in H. rewrite forallb_forall in H. specialize (H p). rewrite E in H. destruct (solve p q) as [r|].
  - exists r. split; [auto|]. apply solvedb_ok, H, in_seq. split; [lia|]. apply nth_error_Some. congruence.
  - assert (false = true) as X; [|discriminate X]. apply H, in_seq. split; [lia|]. apply nth_error_Some. congruence.
Qed.

(** ** non-vacuity: two components with two terminals each (the first has a terminal block of two vertices), one isolated vertex *)
Definition sp_ops : list mop := [NewOrder 0 1 3; NewOrder 1 2 1; NewOrder 2 3 4; NewOrder 0 3 2; NewOrder 4 5 5].
Definition spg : mg := mg_of 7 sp_ops.
Definition sp_tm : list (option nat) := [Some 0; Some 0; Some 1; None; Some 0; Some 2; None].
Lemma spg_valid : mvalid spg. Proof. exact (proj1 (mg_of_valid 7 sp_ops eq_refl)). Qed.
Lemma sp_terms : terminals_ok spg 3 sp_tm.
Proof. split; [lia|]. split; [reflexivity|]. intros v t. do 7 (destruct v as [|v]; [cbn; intro H; try discriminate H; injection H as <-; lia|]). cbn. destruct v; discriminate. Qed.
Example C40_ex : mvalid spg /\ terminals_ok spg 3 sp_tm /\
  exists s comp, split (fun l => l) 3 sp_tm spg = Some (s, comp) /\ solver_ok brute s /\ comp = [Some 0; Some 0; Some 0; Some 0; Some 1; Some 1; Some 2] /\ map q_gti (ss_probs s) = [[0; 1]; [0; 2]] /\
    multicut (fun l => l) brute true 3 sp_tm spg = Some (8%N, Some [0; 0; 1; 1; 0; 2; 0]).
Proof.
  split; [exact spg_valid|]. split; [exact sp_terms|]. destruct (split (fun l => l) 3 sp_tm spg) as [[s comp]|] eqn:E; [|vm_compute in E; discriminate E]. exists s, comp. split; [reflexivity|].
  vm_compute in E. injection E as <- <-. split; [apply solver_okb_ok; vm_compute; reflexivity|]. vm_compute. auto.
Qed.
(** a connected graph *)
Definition spc : mg := mg_of 4 [NewOrder 0 1 3; NewOrder 1 2 1; NewOrder 2 3 4; NewOrder 0 3 2].
Example C40_connected_ex : mvalid spc /\ terminals_ok spc 2 [Some 0; None; Some 1; None] /\ (forall u v, u < m_n spc -> v < m_n spc -> joined spc u v) /\
  multicut (fun l => l) brute true 2 [Some 0; None; Some 1; None] spc = Some (3%N, Some [0; 0; 1; 1]).
Proof.
  split; [exact (proj1 (mg_of_valid 4 [NewOrder 0 1 3; NewOrder 1 2 1; NewOrder 2 3 4; NewOrder 0 3 2] eq_refl))|].
  split; [split; [lia|]; split; [reflexivity|]; intros v t; do 4 (destruct v as [|v]; [cbn; intro H; try discriminate H; injection H as <-; lia|]); cbn; destruct v; discriminate|].
  split; [|reflexivity].
  assert (R : forall a b c, joined spc a b -> In c (nth b (pos_nb (m_n spc) (wt (adj (m_rows spc)))) []) -> joined spc a c). { intros a b c (j & H) I. exists (S j). econstructor; eauto. }
  assert (Z : forall a, joined spc a a) by (intro a; exists 0; constructor).
  assert (NB : pos_nb (m_n spc) (wt (adj (m_rows spc))) = [[1; 3]; [0; 2]; [1; 3]; [0; 2]]) by reflexivity. rewrite NB in R.
  assert (A : forall u, u < 4 -> joined spc u 0).
  { intros u Hu. destruct u as [|[|[|[|u]]]]; try lia; [apply Z|apply (R _ 1); [apply Z|cbn; auto]| |apply (R _ 3); [apply Z|cbn; auto]].
    apply (R _ 1); [apply (R _ 2); [apply Z|cbn; auto]|cbn; auto]. }
  intros u v Hu Hv. change (u < 4) in Hu. change (v < 4) in Hv. specialize (A u Hu). destruct v as [|[|[|[|v]]]]; try lia; [exact A|apply (R _ 0); [exact A|cbn; auto]| |apply (R _ 0); [exact A|cbn; auto]].
  apply (R _ 1); [apply (R _ 0); [exact A|cbn; auto]|cbn; auto].
Qed.

(** ** the full claim is false: an isolated vertex in front of an edge between two terminals *)
Definition spr_ops : list mop := [NewOrder 1 2 5].
Definition spr : mg := mg_of 3 spr_ops.
Theorem C40_refuted : ~ C40_statement.
Proof.
  intro H. destruct (H (fun l => l) brute 2 [None; Some 0; Some 1] spr) as (s & comp & E & K).
  - exact (proj1 (mg_of_valid 3 spr_ops eq_refl)).
  - split; [lia|]. split; [reflexivity|]. intros v t. do 3 (destruct v as [|v]; [cbn; intro X; try discriminate X; injection X as <-; lia|]). cbn. destruct v; discriminate.
  - intro l. apply Permutation_refl.
  - vm_compute in E. injection E as <- <-. destruct K as (val & g & K & _); [apply solver_okb_ok; vm_compute; reflexivity|]. vm_compute in K. discriminate K.
Qed.
Print Assumptions C40_refuted.
