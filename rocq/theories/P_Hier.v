(* P_Hier.v - degrees, hierarchies of contractions, and the bookkeeping of minimum_cut_helpers. *)
From Verif Require Import SpecRel M_UnionFind P_UnionFind SpecCut SpecHier P_Cut M_CutHelpers P_Contract P_Degree.

(** degrees *)
Lemma wt_deg G v : undirected G -> deg G v = bsum (length G) (fun x => wt G v x).
Proof.
  intros [U1 _]. unfold deg, wt, bsum.
  rewrite (sumN_ext (fun x => sumN snd (filter _ _)) (fun x => sumN (fun e => if fst e =? x then snd e else 0%N) (nth v G []))) by (intros; apply sumN_filter).
  rewrite sumN_swap. apply sumN_ext. intros [y w] He. cbn [fst snd].
  rewrite (sumN_ext _ (fun x => if x =? y then w else 0%N)) by (intros; rewrite Nat.eqb_sym; reflexivity).
  rewrite (sumN_single_nat (fun _ => w)); [reflexivity|apply seq_NoDup|]. apply in_seq. destruct (U1 v y w He). lia.
Qed.

Lemma wt_loop G v : undirected G -> wt G v v = 0%N.
Proof.
  intros [U1 _]. unfold wt. rewrite sumN_filter. apply sumN_zero. intros [y w] He. cbn [fst].
  destruct (U1 v y w He) as [_ N]. apply Nat.eqb_neq in N. rewrite N. reflexivity.
Qed.

Lemma deg_wdeg G v : undirected G -> deg G v = wdeg (length G) (wt G) v.
Proof.
  intro U. rewrite wt_deg by auto. unfold wdeg. apply bsum_ext. intros x _.
  destruct (Nat.eqb_spec x v) as [->|]; [apply wt_loop; auto|reflexivity].
Qed.

Lemma deg_cut G v : undirected G -> v < length G -> deg G v = cutw (length G) (wt G) (fun x => x =? v).
Proof. intros U Hv. rewrite deg_wdeg, cutw_single; auto. Qed.

Lemma min_degree_ok G : (min_degree G <= u64max)%N /\ (forall v, v < length G -> (min_degree G <= deg G v)%N) /\
  (min_degree G = u64max \/ exists v, v < length G /\ min_degree G = deg G v).
Proof.
  unfold min_degree. destruct (fold_min_ok (map (deg G) (seq 0 (length G))) u64max) as [A [B C]].
  split; [auto|]. split.
  - intros v Hv. apply B. apply in_map. apply in_seq. lia.
  - destruct C as [C|C]; [auto|]. right. apply in_map_iff in C. destruct C as [v [E Hv]]. apply in_seq in Hv. exists v. split; [lia|auto].
Qed.

Lemma max_degree_ok G v : v < length G -> (deg G v <= max_degree G)%N.
Proof.
  intro Hv. unfold max_degree. destruct (fold_max_ok (map (deg G) (seq 0 (length G))) 0%N) as [A [B C]].
  apply B. apply in_map. apply in_seq. lia.
Qed.

Lemma max_degree_in G : max_degree G = 0%N \/ exists v, v < length G /\ max_degree G = deg G v.
Proof.
  unfold max_degree. destruct (fold_max_ok (map (deg G) (seq 0 (length G))) 0%N) as [A [B C]].
  destruct C as [C|C]; [auto|]. right. apply in_map_iff in C. destruct C as [v [E Hv]]. apply in_seq in Hv. exists v. split; [lia|auto].
Qed.

Lemma minimum_index_ok G : (exists v, v < length G /\ deg G v = min_degree G) ->
  minimum_index G < length G /\ deg G (minimum_index G) = min_degree G.
Proof.
  intros [v [Hv E]]. unfold minimum_index.
  destruct (find (fun v => (deg G v =? min_degree G)%N) (seq 0 (length G))) as [x|] eqn:F.
  - apply find_some in F. destruct F as [F1 F2]. apply in_seq in F1. apply N.eqb_eq in F2. split; [lia|auto].
  - pose proof (find_none _ _ F v ltac:(apply in_seq; lia)) as X. cbn beta in X. apply N.eqb_neq in X. contradiction.
Qed.

(** the minimum degree vertex, when the minimum degree is below the 64-bit maximum *)
Lemma min_vertex G b : (min_degree G < b)%N -> (b <= u64max)%N ->
  minimum_index G < length G /\ deg G (minimum_index G) = min_degree G.
Proof.
  intros L B. apply minimum_index_ok. destruct (min_degree_ok G) as [_ [_ [E|[v [Hv E]]]]]; [lia|]. exists v. auto.
Qed.

(** hierarchies *)
Lemma coarse_id_snoc maps m v : coarse_id (maps ++ [m]) v = nth (coarse_id maps v) m 0.
Proof. unfold coarse_id. rewrite fold_left_app. reflexivity. Qed.

Lemma contraction_of_id n W : contraction_of n W (fun v => v) n W.
Proof.
  intros p q Hp Hq _.
  rewrite (bsum_ext n _ (fun u => if u =? p then bsum n (fun v => if v =? q then W u v else 0%N) else 0%N)).
  - rewrite (bsum_single n (fun u => bsum n (fun v => if v =? q then W u v else 0%N))) by auto.
    rewrite (bsum_single n (fun v => W p v)) by auto. reflexivity.
  - intros u _. destruct (u =? p); cbn [andb]; [reflexivity|]. apply bsum_zero. reflexivity.
Qed.

Lemma hier_ok G0 maps H : undirected G0 -> hier G0 maps H -> undirected H /\
  clustering (length G0) (coarse_id maps) (length H) /\
  contraction_of (length G0) (wt G0) (coarse_id maps) (length H) (wt H).
Proof.
  intros U Hh. induction Hh as [|maps H m H' Hh [I1 [I2 I3]] U' Cl Ct].
  - split; [auto|]. split; [split; [auto|intros p Hp; exists p; auto]|]. apply contraction_of_id.
  - split; [auto|]. split.
    + pose proof (clustering_compose _ _ _ _ _ I2 Cl) as [A B]. split.
      * intros u Hu. rewrite coarse_id_snoc. apply A. auto.
      * intros p Hp. destruct (B p Hp) as [u [Hu Eu]]. exists u. rewrite coarse_id_snoc. auto.
    + pose proof (contraction_compose _ _ _ _ _ (fun v => nth v m 0) _ _ (proj1 I2) I3 Ct) as C.
      intros p q Hp Hq N. rewrite C by auto. apply bsum_ext. intros u _. apply bsum_ext. intros v _.
      rewrite !coarse_id_snoc. reflexivity.
Qed.

Lemma nth_map_seq {A} (f : nat -> A) n v d : v < n -> nth v (map f (seq 0 n)) d = f v.
Proof.
  intro H. rewrite (nth_indep _ d (f 0)) by (rewrite map_length, seq_length; auto).
  rewrite map_nth, seq_nth by auto. reflexivity.
Qed.

Lemma level_marks G0 maps H x : undirected G0 -> hier G0 maps H -> 2 <= length H -> x < length H ->
  marks_ok G0 (map (fun v => coarse_id maps v =? x) (seq 0 (length G0))) (deg H x).
Proof.
  intros U Hh L Hx. destruct (hier_ok G0 maps H U Hh) as [UH [Cl Ct]].
  split; [rewrite map_length, seq_length; auto|].
  assert (E : forall v, v < length G0 -> marked (map (fun v => coarse_id maps v =? x) (seq 0 (length G0))) v = (coarse_id maps v =? x)).
  { intros v Hv. unfold marked. apply (nth_map_seq (fun v => coarse_id maps v =? x)). auto. }
  split.
  - eapply proper_ext; [intros v Hv; symmetry; apply E; auto|].
    apply (proper_pull _ _ _ (fun p => p =? x) Cl). apply proper_single; auto.
  - rewrite (cutw_ext _ _ _ (fun v => coarse_id maps v =? x)) by auto.
    rewrite <- (contraction_cut _ _ (coarse_id maps) (length H) (wt H) (fun p => p =? x)) by (auto; apply Cl).
    rewrite deg_cut; auto.
Qed.

Lemma initial_marks_ok G : undirected G -> 2 <= length G -> (min_degree G < u64max)%N -> marks_ok G (initial_marks G) (min_degree G).
Proof.
  intros U L B. destruct (min_vertex G u64max B (N.le_refl _)) as [A1 A2]. rewrite <- A2.
  apply (level_marks G [] G (minimum_index G) U (hier_nil G) L A1).
Qed.

Lemma update_cut_ok G0 maps H prev marks c' marks' : undirected G0 -> hier G0 maps H -> (prev <= u64max)%N ->
  marks_ok G0 marks prev -> update_cut maps H prev marks = (c', marks') ->
  marks_ok G0 marks' c' /\ (c' <= prev)%N /\ (2 <= length H -> forall v, v < length H -> (c' <= deg H v)%N).
Proof.
  intros U Hh B M E. unfold update_cut in E.
  destruct (Nat.ltb_spec 1 (length H)) as [L|L].
  - destruct (min_degree_ok H) as [_ [Md _]].
    destruct (N.ltb_spec (min_degree H) prev) as [D|D]; injection E as <- <-.
    + rewrite N.min_r by lia. split; [|split; [lia|intros _ v Hv; auto]].
      destruct (min_vertex H prev D B) as [A1 A2]. rewrite <- A2. destruct M as [M1 _]. rewrite M1.
      apply level_marks; auto.
    + rewrite N.min_l by auto. split; [auto|]. split; [lia|]. intros _ v Hv. specialize (Md v Hv). lia.
  - injection E as <- <-. split; [auto|]. split; [lia|]. lia.
Qed.

(** joined pairs shrink the number of sets *)
Lemma cnt_lt n ps u x y : inv n ps u -> x < n -> y < n -> x <> y -> conn ps x y -> cnt u < n.
Proof.
  intros I Hx Hy N C. destruct (inv_classes n ps u I) as [reps [L [ND [Lt [Un Cov]]]]].
  assert (Le : length reps <= n).
  { rewrite <- (seq_length n 0). apply NoDup_incl_length; [auto|]. intros r Hr. apply in_seq. specialize (Lt r Hr). lia. }
  destruct (Nat.eq_dec (length reps) n) as [E|E]; [|lia]. exfalso. apply N.
  assert (Inc : incl (seq 0 n) reps).
  { apply NoDup_length_incl; [auto|rewrite seq_length; lia|]. intros r Hr. apply in_seq. specialize (Lt r Hr). lia. }
  apply Un; auto; apply Inc, in_seq; lia.
Qed.

Lemma cnt_pos n ps u : inv n ps u -> 0 < n -> 0 < cnt u.
Proof.
  intros I Hn. destruct (inv_classes n ps u I) as [reps [L [_ [_ [_ Cov]]]]]. destruct (Cov 0 Hn) as [r [Hr _]].
  destruct reps; [contradiction|]. simpl in L. lia.
Qed.

(** pairs of a relation closed under the equivalence *)
Lemma conn_conn_ge n W c ps x y : (forall a b, In (a, b) ps -> conn_ge n W c a b) -> conn ps x y -> conn_ge n W c x y.
Proof.
  intros H. apply conn_in_relation; auto.
  - intros a. apply conn_ge_refl.
  - intros a b. apply conn_ge_sym.
  - intros a b d. apply conn_ge_trans.
Qed.

(** every cut is at most the total weight *)
Definition total (G : graph) : N := bsum (length G) (deg G).

Lemma cut_total G S : undirected G -> (cutw (length G) (wt G) S <= total G)%N.
Proof.
  intro U. unfold cutw, total. apply bsum_le. intros u Hu. rewrite wt_deg by auto. apply bsum_le. intros v Hv.
  destruct (S u && negb (S v)); lia.
Qed.

Lemma hier_deg_total G0 maps H x : undirected G0 -> hier G0 maps H -> x < length H -> (deg H x <= total G0)%N.
Proof.
  intros U Hh Hx. destruct (hier_ok G0 maps H U Hh) as [UH [Cl Ct]].
  rewrite deg_cut by auto. rewrite (contraction_cut _ _ _ _ _ _ (proj1 Cl) Ct). apply cut_total. auto.
Qed.
