(* Prop_Scc.v - properties C45 (strongly connected components), C58 (block sizes), C59 (largest component). *)
From Coq Require Import Relations.
From Verif Require Import SpecHop SpecInduced M_Scc P_Scc P_Contract P_Graph.

(** the edges a search over [rows] follows *)
Definition present (rows : list (list (option nat))) : list (list nat) := map (flat_map (fun o => match o with Some t => [t] | None => [] end)) rows.

Lemma nth_map_nil {A B} (f : list A -> list B) l i : f [] = [] -> nth i (map f l) [] = f (nth i l []).
Proof. intro E. rewrite <- E at 1. apply map_nth. Qed.
Lemma in_present rows u v : In v (nth u (present rows) []) <-> In (Some v) (nth u rows []).
Proof.
  unfold present. rewrite nth_map_nil, in_flat_map by reflexivity. split.
  - intros ([t|] & H & E); [destruct E as [<-|[]]; exact H|destruct E].
  - intro H. exists (Some v). split; [exact H|left; auto].
Qed.
Lemma reach_iff rows u v : sreach rows u v <-> reach (present rows) u v.
Proof.
  split.
  - intro R. apply clos_rt_rtn1 in R. induction R as [|y z SE _ (k & IH)]; [exists 0; constructor|]. exists (S k). econstructor; [exact IH|]. apply in_present. exact SE.
  - intros (k & H). induction H as [|v w k _ IH Hw]; [apply rt_refl|]. eapply rt_trans; [exact IH|]. apply rt_step. unfold sedge. apply in_present. exact Hw.
Qed.

(** the objects a caller can have: a new one, or one that has been used before *)
Inductive scc_object : scc -> Prop :=
| so_new : scc_object scc_new
| so_used o rows s : scc_object o -> (forall u v, In v (nth u (present rows) []) -> v < length rows) -> strong_components o rows = Some s -> scc_object s.

Lemma object_stacks o : scc_object o -> s_unf o = [] /\ s_rts o = [] /\ s_stk o = [].
Proof.
  induction 1 as [|o rows s _ (A & B & C) W E]; [auto|]. destruct (scc_ok rows (fun u v H => W u v (proj2 (in_present rows u v) H)) o A B C) as (s' & E' & _ & U & R & K & _). rewrite E in E'. injection E' as <-. auto.
Qed.

Definition same_scc (nb : list (list nat)) (u v : nat) : Prop := reach nb u v /\ reach nb v u.

(** ** C45: the search terminates without an access out of range or to an empty stack, on every object; components
    are numbered without gaps; two vertices get the same number exactly if they reach each other *)
Theorem C45_components : forall o rows, scc_object o -> (forall u v, In v (nth u (present rows) []) -> v < length rows) ->
  exists s, strong_components o rows = Some s /\ length (s_comp s) = length rows /\
    (forall v, v < length rows -> exists c, nth v (s_comp s) None = Some c /\ c < s_cc s) /\
    (forall c, c < s_cc s -> exists v, v < length rows /\ nth v (s_comp s) None = Some c) /\
    (forall u v, u < length rows -> v < length rows -> (nth u (s_comp s) None = nth v (s_comp s) None <-> same_scc (present rows) u v)).
Proof.
  intros o rows O W. destruct (object_stacks o O) as (A & B & C). destruct (scc_ok rows (fun u v H => W u v (proj2 (in_present rows u v) H)) o A B C) as (s & E & I & _ & _ & _ & F).
  exists s. split; [exact E|]. split; [apply (i_lc _ _ I)|]. split; [|split].
  - intros v Hv. specialize (F v Hv). unfold fin in F. destruct (nth v (s_comp s) None) as [c|] eqn:Q; [|congruence]. exists c. split; [reflexivity|apply (i_cc _ _ I v c Q)].
  - intros c Hc. destruct (i_ne _ _ I c Hc) as (v & Q). exists v. split; [|exact Q]. destruct (Nat.lt_ge_cases v (length rows)); [auto|]. rewrite nth_overflow in Q by (rewrite (i_lc _ _ I); auto). discriminate Q.
  - intros u v Hu Hv. unfold same_scc. rewrite <- !reach_iff. apply (i_comp _ _ I); auto.
Qed.
Print Assumptions C45_components.

(** the residual graph of a flow: the edges whose flow is not equal to their weight *)
Definition residual (fpid : option nat) (g : list (list fedge)) : list (list nat) :=
  map (fun row => map fe_t (filter (fun e => negb (edge_flow fpid e =? Z.of_N (fe_w e))%Z) row)) g.

Lemma present_res fpid g : present (res_rows fpid g) = residual fpid g.
Proof.
  unfold present, res_rows, residual. rewrite map_map. apply map_ext. intro row. induction row as [|e row IH]; [reflexivity|]. cbn [map flat_map filter]. rewrite IH. destruct (edge_flow fpid e =? Z.of_N (fe_w e))%Z; reflexivity.
Qed.
Lemma present_all rows : present (all_rows rows) = map (map fst) rows.
Proof. unfold present, all_rows. rewrite map_map. apply map_ext. intro row. induction row as [|e row IH]; [reflexivity|]. cbn [map flat_map]. rewrite IH. reflexivity. Qed.

Theorem C45_mutable : forall o fpid g, scc_object o -> (forall u e, In e (nth u g []) -> fe_t e < length g) ->
  exists s, strong_components o (res_rows fpid g) = Some s /\
    (forall v, v < length g -> exists c, nth v (s_comp s) None = Some c /\ c < s_cc s) /\
    (forall u v, u < length g -> v < length g -> (nth u (s_comp s) None = nth v (s_comp s) None <-> same_scc (residual fpid g) u v)).
Proof.
  intros o fpid g O W. assert (L : length (res_rows fpid g) = length g) by apply map_length.
  destruct (C45_components o (res_rows fpid g) O) as (s & E & _ & A & _ & B).
  - rewrite present_res, L. intros u v H. unfold residual in H. set (f := fun row : list fedge => map fe_t (filter (fun e => negb (edge_flow fpid e =? Z.of_N (fe_w e))%Z) row)) in H.
    rewrite (nth_map_nil f) in H by reflexivity. unfold f in H. apply in_map_iff in H as (e & <- & H). apply filter_In in H as [H _]. exact (W u e H).
  - rewrite L, present_res in *. exists s. auto.
Qed.
Print Assumptions C45_mutable.

Theorem C45_static : forall o rows, scc_object o -> (forall u t w, In (t, w) (nth u rows []) -> t < length rows) ->
  exists s, strong_components o (all_rows rows) = Some s /\
    (forall v, v < length rows -> exists c, nth v (s_comp s) None = Some c /\ c < s_cc s) /\
    (forall u v, u < length rows -> v < length rows -> (nth u (s_comp s) None = nth v (s_comp s) None <-> same_scc (map (map fst) rows) u v)).
Proof.
  intros o rows O W. assert (L : length (all_rows rows) = length rows) by apply map_length.
  destruct (C45_components o (all_rows rows) O) as (s & E & _ & A & _ & B).
  - rewrite present_all, L. intros u v H. rewrite (nth_map_nil (map fst)) in H by reflexivity. apply in_map_iff in H as ([t w] & <- & H). exact (W u t w H).
  - rewrite L, present_all in *. exists s. auto.
Qed.
Print Assumptions C45_static.

(** two cycles joined by an edge, a vertex only reached and a vertex only leaving; one edge saturated *)
Definition scc_ex : list (list fedge) :=
  map (map (fun e => mk_fe (fst e) 2%N (snd e) 7)) [[(1, 0%Z)]; [(2, 1%Z); (3, 0%Z)]; [(0, (-2)%Z)]; [(4, 0%Z); (1, 2%Z)]; [(5, 0%Z)]; [(3, 0%Z); (6, 1%Z)]; []; [(0, 0%Z)]].
Example C45_ex : scc_object scc_new /\ (forall u e, In e (nth u scc_ex []) -> fe_t e < 8) /\
  option_map (fun s => (s_comp s, s_cc s, s_bs s)) (strong_components scc_new (res_rows (Some 7) scc_ex)) = Some ([Some 2; Some 2; Some 2; Some 1; Some 1; Some 1; Some 0; Some 3], 4, [1; 3; 3; 1]) /\
  option_map (fun s => s_comp s) (strong_components scc_new (res_rows (Some 8) scc_ex)) = Some [Some 1; Some 1; Some 1; Some 1; Some 1; Some 1; Some 0; Some 2].
Proof.
  split; [constructor|]. split; [|split; vm_compute; reflexivity].
  intros u e H. assert (Q : forallb (fun row => forallb (fun e => fe_t e <? 8) row) scc_ex = true) by (vm_compute; reflexivity). rewrite forallb_forall in Q.
  destruct (Nat.lt_ge_cases u (length scc_ex)) as [L|L]; [|rewrite nth_overflow in H by exact L; destruct H]. specialize (Q _ (nth_In _ [] L)). rewrite forallb_forall in Q. apply Nat.ltb_lt, Q, H.
Qed.

(** ** C58: block sizes.  The full statement, for every object *)
Definition sizes_exact (s : scc) : Prop :=
  length (s_bs s) = s_cc s /\ forall c, nth c (s_bs s) 0 = length (filter (fun v => match nth v (s_comp s) None with Some x => x =? c | None => false end) (seq 0 (length (s_comp s)))).
Definition C58_statement : Prop := forall o rows s, scc_object o -> (forall u v, In v (nth u (present rows) []) -> v < length rows) ->
  strong_components o rows = Some s -> sizes_exact s.

Lemma filter_nth_seq {A} (f : A -> bool) (l : list A) d : length (filter f l) = length (filter (fun i => f (nth i l d)) (seq 0 (length l))).
Proof.
  induction l as [|a l IH]; [reflexivity|]. cbn [length seq filter nth]. rewrite <- seq_shift.
  assert (Q : length (filter (fun i => f match i with 0 => a | S m => nth m l d end) (map S (seq 0 (length l)))) = length (filter (fun i => f (nth i l d)) (seq 0 (length l)))).
  { clear. induction (seq 0 (length l)) as [|x q IH]; [reflexivity|]. cbn [map filter]. destruct (f (nth x l d)); cbn [length]; rewrite IH; reflexivity. }
  destruct (f a); cbn [length]; rewrite Q, IH; reflexivity.
Qed.

Theorem C58_sizes_partial : forall rows s, (forall u v, In v (nth u (present rows) []) -> v < length rows) ->
  strong_components scc_new rows = Some s -> sizes_exact s.
Proof.
  intros rows s W E. destruct (scc_sizes rows (fun u v H => W u v (proj2 (in_present rows u v) H)) scc_new s eq_refl eq_refl eq_refl eq_refl E) as [A B]. split; [exact A|]. intro c. rewrite (B c), (filter_nth_seq _ _ None). reflexivity.
Qed.
Print Assumptions C58_sizes_partial.

(** a second call on the same object adds to the sizes of the first *)
Theorem C58_refuted : ~ C58_statement.
Proof.
  intro H. destruct (strong_components scc_new [[Some 1]; [Some 0]]) as [o|] eqn:E; [|vm_compute in E; discriminate E].
  assert (W : forall u v, In v (nth u (present [[Some 1]; [Some 0]]) []) -> v < 2) by (intros [|[|[|u]]] v Hv; cbn in Hv; repeat destruct Hv as [<-|Hv]; try lia; destruct Hv).
  assert (O : scc_object o) by (eapply so_used; [constructor|exact W|exact E]).
  destruct (strong_components o [[Some 1]; [Some 0]]) as [s|] eqn:E2; [|vm_compute in E; injection E as <-; vm_compute in E2; discriminate E2].
  destruct (H o _ s O W E2) as [_ Q]. vm_compute in E. injection E as <-. vm_compute in E2. injection E2 as <-. specialize (Q 0). vm_compute in Q. discriminate Q.
Qed.
Print Assumptions C58_refuted.

(** ** C59: largest_scc *)
Section Extract.
Context (rows : list (list (nat * N))) (blk : nat -> bool).
Let n := length rows.
Context (W : forall u t w, In (t, w) (nth u rows []) -> t < n /\ t <> u).
Let cs := filter blk (seq 0 n).

Lemma fs_nth v : v < n -> blk v = true -> nth (length (filter blk (seq 0 v))) cs 0 = v /\ length (filter blk (seq 0 v)) < length cs.
Proof.
  intros L F. unfold cs. replace n with (v + (1 + (n - v - 1))) by lia. rewrite (seq_app v (1 + (n - v - 1)) 0), filter_app, app_length. cbn [plus seq filter]. rewrite F. split; [|cbn [length]; lia]. rewrite app_nth2 by lia. rewrite Nat.sub_diag. reflexivity.
Qed.
Lemma in_cs_iff v : In v cs <-> v < n /\ blk v = true.
Proof. unfold cs. rewrite filter_In, in_seq. intuition. Qed.
Lemma cs_sorted : StronglySorted lt cs.
Proof.
  unfold cs. generalize 0 at 1. generalize n. clear. intro m. induction m as [|m IH]; intro a; [constructor|]. cbn [seq filter]. destruct (blk a); [|apply IH]. constructor; [apply IH|].
  rewrite Forall_forall. intros x Hx. apply filter_In in Hx as [Hx _]. apply in_seq in Hx. lia.
Qed.

Lemma extract_row_ok row : (forall t w, In (t, w) row -> t < n) ->
  map (fun e => (nth (fst e) cs 0, snd e)) (extract_row blk row) = filter (fun e => existsb (Nat.eqb (fst e)) cs) row /\
  (forall t w, In (t, w) (extract_row blk row) -> t < length cs /\ In (nth t cs 0, w) row).
Proof.
  induction row as [|[t w] row IH]; intro H; [split; [reflexivity|intros t w []]|]. unfold extract_row. cbn [flat_map]. fold (extract_row blk row).
  destruct IH as [IH1 IH2]; [intros; eapply H; right; eauto|]. cbn [fst snd filter]. assert (Ht : t < n) by (eapply H; left; eauto). destruct (blk t) eqn:F.
  - destruct (fs_nth t Ht F) as [A B]. cbn [app map fst snd]. rewrite A, IH1. replace (existsb (Nat.eqb t) cs) with true by (symmetry; apply existsb_exists; exists t; split; [apply in_cs_iff; auto|apply Nat.eqb_refl]). split; [reflexivity|].
    intros t' w' [E|E]; [injection E as <- <-; split; [exact B|left; rewrite A; reflexivity]|]. destruct (IH2 t' w' E). split; [auto|right; auto].
  - replace (existsb (Nat.eqb t) cs) with false. 2:{ symmetry. apply not_true_is_false. intro X. apply existsb_exists in X as (y & Hy & X). apply Nat.eqb_eq in X as <-. apply in_cs_iff in Hy. destruct Hy; congruence. }
    cbn [app]. rewrite IH1. split; [reflexivity|]. intros t' w' E. destruct (IH2 t' w' E). split; [auto|right; auto].
Qed.

Lemma extract_ok : exists h, extract_block blk rows = Some h /\ induced rows cs (adj_of h).
Proof.
  unfold extract_block. set (rs := extract_rows blk rows). assert (L : length rs = length cs) by (unfold rs, extract_rows; apply map_length).
  assert (NR : forall i, i < length cs -> nth i rs [] = extract_row blk (nth (nth i cs 0) rows [])).
  { intros i Hi. unfold rs, extract_rows. rewrite (nth_indep _ [] (extract_row blk (nth 0 rows []))) by (rewrite map_length; exact Hi). apply (map_nth (fun v => extract_row blk (nth v rows [])) _ 0 i). }
  assert (OK : forall u v w, In (v, w) (nth u rs []) -> v < length rs /\ v <> u).
  { intros u v w H. destruct (Nat.lt_ge_cases u (length cs)) as [Lu|Lu]; [|rewrite nth_overflow in H by (rewrite L; exact Lu); destruct H]. rewrite (NR u Lu) in H.
    destruct (extract_row_ok (nth (nth u cs 0) rows [])) as [_ Q]; [intros t0 w0 H0; exact (proj1 (W _ _ _ H0))|]. destruct (Q v w H) as [A B]. rewrite L. split; [exact A|]. intros ->. apply (W _ _ _ B). reflexivity. }
  destruct (build_rows (length (concat rows)) rs OK) as (h & B & A). exists h. split; [exact B|]. rewrite A. split; [exact L|]. intros i Hi. rewrite (NR i Hi).
  destruct (extract_row_ok (nth (nth i cs 0) rows [])) as [Q1 Q2]; [intros t0 w0 H0; exact (proj1 (W _ _ _ H0))|]. split; [exact Q1|]. intros [t w] H. apply (Q2 t w H).
Qed.
End Extract.

Lemma comp_sizes_ok cc : forall cs sz, (forall o, In o cs -> exists c, o = Some c /\ c < cc) -> length sz = cc ->
  exists sz', comp_sizes cs sz = Some sz' /\ length sz' = cc /\ forall q, nth q sz' 0 = nth q sz 0 + length (filter (has q) cs).
Proof.
  induction cs as [|o cs IH]; intros sz H L; [exists sz; split; [reflexivity|]; split; [exact L|]; intro q; cbn; lia|]. destruct (H o (or_introl eq_refl)) as (c & -> & Lc). cbn [comp_sizes]. rewrite (proj2 (Nat.ltb_lt _ _)) by lia.
  destruct (IH (upd sz c (nth c sz 0 + 1))) as (sz' & E & L' & Q); [intros; apply H; right; auto|rewrite upd_length; exact L|]. exists sz'. split; [exact E|]. split; [exact L'|]. intro q. rewrite Q. cbn [filter has].
  destruct (Nat.eqb_spec c q) as [<-|NE]; [rewrite nth_upd_eq by lia; cbn [length]; lia|rewrite nth_upd_neq by auto; lia].
Qed.

Lemma max_elem_ok : forall l i best bestv all, nth best all 0 = bestv -> (forall j, j < i -> nth j all 0 <= bestv) -> skipn i all = l -> best < i -> i <= length all ->
  max_elem i best bestv l < length all /\ forall j, nth j all 0 <= nth (max_elem i best bestv l) all 0.
Proof.
  induction l as [|x l IH]; intros i best bestv all B M SK LB LI; cbn [max_elem].
  - assert (i = length all). { apply (f_equal (@length _)) in SK. rewrite skipn_length in SK. cbn in SK. lia. } split; [lia|]. intro j. rewrite B. destruct (Nat.lt_ge_cases j i); [auto|]. rewrite nth_overflow by lia. lia.
  - assert (Li : i < length all) by (apply (f_equal (@length _)) in SK; rewrite skipn_length in SK; cbn in SK; lia).
    assert (X : nth i all 0 = x /\ skipn (S i) all = l).
    { rewrite skipn_nth_error in SK. rewrite (nth_error_nth' _ 0 Li) in SK. injection SK as A C. auto. }
    destruct X as [X1 X2]. destruct (Nat.ltb_spec bestv x) as [LT|GE]; apply IH; auto; try lia.
    + intros j Hj. destruct (Nat.eq_dec j i) as [->|]; [lia|]. specialize (M j ltac:(lia)). lia.
    + intros j Hj. destruct (Nat.eq_dec j i) as [->|]; [lia|]. apply M. lia.
Qed.
Lemma max_index_ok l : l <> [] -> max_index l < length l /\ forall j, nth j l 0 <= nth (max_index l) l 0.
Proof.
  intro NE. destruct l as [|x l]; [congruence|]. unfold max_index. apply max_elem_ok; auto; cbn; try lia. intros [|j] Hj; [auto|lia].
Qed.

(** the graph returned is induced by a largest class of mutually reachable vertices *)
Theorem C59_largest_scc : forall rows, (forall u t w, In (t, w) (nth u rows []) -> t < length rows /\ t <> u) ->
  exists h cs, largest_scc rows = Some h /\ StronglySorted lt cs /\ induced rows cs (adj_of h) /\
    (rows <> [] -> cs <> []) /\ (forall v, In v cs -> v < length rows) /\
    (forall x v, In x cs -> v < length rows -> (In v cs <-> same_scc (map (map fst) rows) x v)) /\
    (forall ds, NoDup ds -> (forall x v, In x ds -> In v ds -> v < length rows /\ same_scc (map (map fst) rows) x v) -> length ds <= length cs).
Proof.
  intros rows W. unfold largest_scc.
  assert (L : length (all_rows rows) = length rows) by apply map_length.
  destruct (C45_components scc_new (all_rows rows) so_new) as (s & E & LC & A & NE & B).
  { rewrite present_all, L. intros u v H. rewrite (nth_map_nil (map fst)) in H by reflexivity. apply in_map_iff in H as ([t w] & <- & H). apply (W u t w H). }
  rewrite L, present_all in *. rewrite E.
  destruct (comp_sizes_ok (s_cc s) (s_comp s) (repeat 0 (s_cc s))) as (sz & -> & LS & SZ).
  { intros o Ho. apply (In_nth _ _ None) in Ho as (v & Hv & <-). rewrite LC in Hv. destruct (A v Hv) as (c & Q1 & Q2). exists c. auto. }
  { apply repeat_length. }
  assert (SZ' : forall q, nth q sz 0 = length (filter (fun v => has q (nth v (s_comp s) None)) (seq 0 (length rows)))).
  { intro q. rewrite SZ, (filter_nth_seq _ _ None), LC. replace (nth q (repeat 0 (s_cc s)) 0) with 0; [reflexivity|]. clear. generalize (s_cc s). intro k. revert q. induction k as [|k IH]; intros [|q]; cbn; auto. }
  set (m := max_index sz). destruct (extract_ok rows (fun v => match nth v (s_comp s) None with Some c => c =? m | None => false end) W) as (h & EH & IN). exists h. eexists. split; [exact EH|].
  split; [apply cs_sorted|]. split; [exact IN|]. set (cs := filter _ (seq 0 (length rows))).
  assert (IC : forall v, In v cs <-> v < length rows /\ nth v (s_comp s) None = Some m).
  { intro v. unfold cs. rewrite filter_In, in_seq. destruct (nth v (s_comp s) None) as [c|]; [rewrite Nat.eqb_eq|]; split; intros [X Y]; split; try lia; try congruence. }
  assert (SC : forall q, nth q sz 0 <= length cs).
  { intro q. assert (DN : sz = [] \/ sz <> []) by (destruct sz; [left; reflexivity|right; discriminate]). destruct DN as [E0|DN]; [rewrite E0; destruct q; cbn; lia|]. destruct (max_index_ok sz DN) as [_ Q]. specialize (Q q). fold m in Q. rewrite (SZ' m) in Q. exact Q. }
  split; [|split; [|split]].
  - intros NR E0. destruct rows as [|r0 rows']; [congruence|]. destruct (A 0 ltac:(cbn; lia)) as (c & Q1 & Q2). assert (ML : m < s_cc s) by (rewrite <- LS; apply max_index_ok; intros ->; cbn in LS; lia).
    destruct (NE m ML) as (v & Hv & Q). assert (X : In v cs) by (apply IC; auto). rewrite E0 in X. destruct X.
  - intros v Hv. apply IC in Hv. tauto.
  - intros x v Hx Hv. apply IC in Hx as [Hx Q]. rewrite IC, <- (B x v Hx Hv), Q. intuition.
  - intros ds ND HD. destruct ds as [|x ds]; [cbn; lia|]. destruct (HD x x (or_introl eq_refl) (or_introl eq_refl)) as [Hx _]. destruct (A x Hx) as (c & Q1 & Q2). transitivity (nth c sz 0); [|apply SC]. rewrite SZ'.
    apply NoDup_incl_length; [exact ND|]. intros v Hv. destruct (HD x v (or_introl eq_refl) Hv) as [Lv S]. apply filter_In. split; [apply in_seq; lia|]. apply (B x v Hx Lv) in S. rewrite <- S, Q1. cbn [has]. apply Nat.eqb_refl.
Qed.
Print Assumptions C59_largest_scc.

Definition lscc_ex : list (list (nat * N)) := [[(3, 1%N)]; [(2, 5%N); (4, 2%N)]; [(1, 5%N); (4, 3%N)]; [(0, 1%N)]; [(1, 2%N); (2, 3%N)]; []].
Example C59_ex : (forall u t w, In (t, w) (nth u lscc_ex []) -> t < 6 /\ t <> u) /\
  option_map adj_of (largest_scc lscc_ex) = Some [[(1, 5%N); (2, 2%N)]; [(0, 5%N); (2, 3%N)]; [(0, 2%N); (1, 3%N)]].
Proof.
  split; [|vm_compute; reflexivity]. intros u t w H.
  assert (Q : forallb (fun u => forallb (fun e => (fst e <? 6) && negb (fst e =? u)) (nth u lscc_ex [])) (seq 0 6) = true) by (vm_compute; reflexivity). rewrite forallb_forall in Q.
  destruct (Nat.lt_ge_cases u 6) as [L|L]; [|rewrite nth_overflow in H by exact L; destruct H]. specialize (Q u ltac:(apply in_seq; lia)). rewrite forallb_forall in Q. specialize (Q _ H). cbn [fst] in Q.
  apply andb_true_iff in Q as [Q1 Q2]. apply Nat.ltb_lt in Q1. apply negb_true_iff, Nat.eqb_neq in Q2. auto.
Qed.
