(* Prop_GraphIO.v - properties C27 (round trip of METIS files) and C28 (the METIS reader). *)
From Verif Require Import SpecCut SpecMetis SpecBuild M_Contract P_Contract P_Graph M_GraphIO P_GraphIO Prop_Graph.

(** ** C28: on every METIS file within the bounds of the types, a weighted one without self loops, the reader returns the
    listed edges without self loops *)
Theorem C28_reader_partial : forall weighted m rows bytes, metis_file weighted m rows bytes -> in_bounds rows -> (m < 2 ^ 64)%N -> (weighted = true -> no_loops rows) ->
  exists g, read_graph bytes = Some (Some g) /\ num_nodes g = length rows /\
    forall v, v < length rows -> edges_of g v = filter (fun e => negb (fst e =? v)) (nth v rows []).
Proof.
  intros rw m rows bytes F B Hm NL. destruct (read_ok rw m rows bytes F B Hm NL) as (g & E & A). exists g. split; [exact E|].
  assert (L : num_nodes g = length rows). { rewrite <- (drop_loops_len rows), <- A. unfold adj_of. rewrite map_length, seq_length. reflexivity. }
  split; [exact L|]. intros v Hv. rewrite <- drop_loops_nth by auto. rewrite <- A. unfold adj_of. erewrite nth_indep; [|rewrite map_length, seq_length, L; exact Hv]. rewrite (map_nth (edges_of g) _ 0), seq_nth by lia. reflexivity.
Qed.
Print Assumptions C28_reader_partial.

(** ** the decimal digits written *)
Lemma val_from_app ds ds' x : val_from (ds ++ ds') x = val_from ds' (val_from ds x).
Proof. apply fold_left_app. Qed.
Lemma dec_go_ok : forall fuel x, (x < 2 ^ N.of_nat fuel)%N -> numeral (dec_go (S fuel) x) x.
Proof.
  induction fuel as [|fuel IH]; intros x H.
  - cbn in H. assert (x = 0%N) as -> by lia. split; [discriminate|]. split; [intros c [<-|[]]; cbn; lia|reflexivity].
  - remember (S fuel) as f. cbn [dec_go]. destruct (N.ltb_spec x 10) as [L|L].
    + rewrite N.mod_small by auto. split; [discriminate|]. split; [intros c [<-|[]]; lia|]. unfold value. cbn [fold_left app]. lia.
    + subst f. assert (Q : (x / 10 < 2 ^ N.of_nat fuel)%N). { apply N.div_lt_upper_bound; [lia|]. rewrite Nat2N.inj_succ, N.pow_succ_r' in H. lia. }
      destruct (IH _ Q) as (A & B & C). pose proof (N.mod_lt x 10 ltac:(lia)) as R. split; [intro X; apply app_eq_nil in X as [X _]; auto|]. split.
      * intros c Hc. apply in_app_or in Hc as [Hc|[<-|[]]]; [auto|lia].
      * change (value (dec_go (S fuel) (x / 10) ++ [48 + N.to_nat (x mod 10)])) with (val_from (dec_go (S fuel) (x / 10) ++ [48 + N.to_nat (x mod 10)]) 0). rewrite val_from_app.
        change (val_from (dec_go (S fuel) (x / 10)) 0) with (value (dec_go (S fuel) (x / 10))). rewrite C. cbn [val_from fold_left].
        replace (48 + N.to_nat (x mod 10) - 48) with (N.to_nat (x mod 10)) by lia. rewrite N2Nat.id. pose proof (N.div_mod x 10 ltac:(lia)). lia.
Qed.
Lemma dec_ok x : numeral (dec x) x.
Proof.
  unfold dec. apply dec_go_ok. destruct x as [|p]; [reflexivity|]. cbn [N.size_nat]. pose proof (Pos.size_gt p) as H.
  assert (E : N.of_nat (Pos.size_nat p) = N.pos (Pos.size p)) by (clear; induction p as [p IH|p IH|]; cbn [Pos.size_nat Pos.size]; rewrite ?Nat2N.inj_succ, ?IH; auto; lia).
  rewrite E. change (2 ^ N.pos (Pos.size p))%N with (N.pos (2 ^ Pos.size p)). lia.
Qed.

Definition weightless (rows : list (list (nat * N))) : list (list (nat * N)) := map (map (fun e => (fst e, 1%N))) rows.
Definition written (weighted : bool) (rows : list (list (nat * N))) := if weighted then rows else weightless rows.

Lemma row_text weighted es : (forall t w, In (t, w) es -> (N.of_nat t + 1 < 2 ^ 32)%N) ->
  entries weighted (if weighted then es else map (fun e => (fst e, 1%N)) es) (flat_map (fun e => dec ((N.of_nat (fst e) + 1) mod 2 ^ 32) ++ 32 :: (if weighted then dec (snd e) ++ [32] else [])) es).
Proof.
  intro H. assert (B32 : blanks [32]) by (intros c [<-|[]]; auto). assert (B0 : blanks []) by (intros c []).
  assert (G : forall e, In e es -> exists a, entry weighted (if weighted then e else (fst e, 1%N)) a /\ dec ((N.of_nat (fst e) + 1) mod 2 ^ 32) ++ 32 :: (if weighted then dec (snd e) ++ [32] else []) = a ++ [32]).
  { intros [t w] He. specialize (H t w He). cbn [fst snd]. rewrite N.mod_small by auto. destruct weighted.
    - exists (dec (N.of_nat t + 1) ++ 32 :: dec w). split; [exists (dec (N.of_nat t + 1)), (dec w); split; [reflexivity|split; apply dec_ok]|rewrite <- app_assoc; reflexivity].
    - exists (dec (N.of_nat t + 1)). split; [split; [apply dec_ok|reflexivity]|reflexivity]. }
  clear H. induction es as [|e es IH]; [destruct weighted; constructor; auto|]. destruct (G e (or_introl eq_refl)) as (a & E & X). cbn [flat_map]. rewrite X. specialize (IH (fun x Hx => G x (or_intror Hx))).
  destruct es as [|e' es].
  - cbn [flat_map]. rewrite app_nil_r. destruct weighted; cbn [map]; apply en_last; auto.
  - rewrite <- app_assoc. destruct weighted; cbn [map app] in *; apply en_cons; auto.
Qed.

Lemma flat_join (ls : list (list nat)) : flat_map (fun l => l ++ [10]) ls = join true ls.
Proof. induction ls as [|l ls IH]; [reflexivity|]. cbn [flat_map]. rewrite IH. cbn [join]. destruct ls; [cbn; rewrite app_nil_r; reflexivity|rewrite <- app_assoc; reflexivity]. Qed.

Lemma write_file weighted g : in_bounds (adj_of g) -> metis_file weighted (N.of_nat (Nat.div2 (num_edges g))) (written weighted (adj_of g)) (write_graph weighted g).
Proof.
  intros [Bn Bd]. set (text := fun es : list (nat * N) => flat_map (fun e => dec ((N.of_nat (fst e) + 1) mod 2 ^ 32) ++ 32 :: (if weighted then dec (snd e) ++ [32] else [])) es).
  assert (LA : length (adj_of g) = num_nodes g) by (unfold adj_of; rewrite map_length, seq_length; reflexivity).
  assert (LW : length (written weighted (adj_of g)) = num_nodes g) by (unfold written, weightless; destruct weighted; rewrite ?map_length; auto).
  exists [], (dec (N.of_nat (num_nodes g)) ++ 32 :: dec (N.of_nat (Nat.div2 (num_edges g))) ++ [32; if weighted then 49 else 48]), (map text (adj_of g)), true.
  split; [intros l []|]. rewrite LW. split; [|split; [|split; [auto|]]].
  - exists (dec (N.of_nat (num_nodes g))), (dec (N.of_nat (Nat.div2 (num_edges g)))), [32; if weighted then 49 else 48]. split; [reflexivity|]. split; [apply dec_ok|]. split; [apply dec_ok|].
    unfold format. destruct weighted; [exists [49]|right; exists [48]]; (split; [reflexivity|]); (split; [discriminate|]); (split; [intros c [<-|[]]; lia|reflexivity]).
  - assert (G : forall u es, nth_error (adj_of g) u = Some es -> forall t w, In (t, w) es -> (N.of_nat t + 1 < 2 ^ 32)%N).
    { intros u es E t w I. destruct (Bd u t w) as [X _]; [rewrite (nth_error_nth _ _ _ E); exact I|]. lia. }
    clear - G. unfold written, weightless. induction (adj_of g) as [|es rows IH]; [destruct weighted; constructor|]. pose proof (row_text weighted es (G 0 es eq_refl)) as R. specialize (IH (fun u => G (S u))).
    destruct weighted; cbn [map]; apply nl_node; auto; exists 0; eexists; (split; [reflexivity|exact R]).
  - cbn [app]. rewrite <- flat_join. cbn [flat_map]. unfold write_graph. rewrite <- !app_assoc. cbn [app]. rewrite <- !app_assoc. do 3 f_equal. cbn [app]. do 3 f_equal. unfold adj_of. rewrite map_map, !flat_map_concat_map, map_map. reflexivity.
Qed.

Lemma drop_none rows : no_loops rows -> drop_loops rows = rows.
Proof.
  intro H. apply nth_ext with [] []; [apply drop_loops_len|]. intros u Hu. rewrite drop_loops_len in Hu. rewrite drop_loops_nth by auto. specialize (H u). induction (nth u rows []) as [|[t w] es IH]; [reflexivity|]. cbn [filter fst].
  destruct (Nat.eqb_spec t u) as [->|]; [exfalso; apply (H u w); [left; auto|auto]|]. cbn [negb]. f_equal. apply IH. intros x y Hx. apply (H x y). right; auto.
Qed.

(** ** C27: reading a written graph gives the same lists; without weights every edge gets weight 1 *)
Theorem C27_round_trip : forall weighted g, in_bounds (adj_of g) -> no_loops (adj_of g) -> (N.of_nat (num_edges g) < 2 ^ 64)%N ->
  exists g', read_graph (write_graph weighted g) = Some (Some g') /\ num_nodes g' = num_nodes g /\
    forall v, v < num_nodes g -> edges_of g' v = (if weighted then edges_of g v else map (fun e => (fst e, 1%N)) (edges_of g v)).
Proof.
  intros weighted g B NL Hm. pose proof (write_file weighted g B) as F.
  assert (LA : length (adj_of g) = num_nodes g) by (unfold adj_of; rewrite map_length, seq_length; reflexivity).
  assert (LW : length (written weighted (adj_of g)) = num_nodes g) by (unfold written, weightless; destruct weighted; rewrite ?map_length; auto).
  assert (NT : forall u, nth u (weightless (adj_of g)) [] = map (fun e => (fst e, 1%N)) (nth u (adj_of g) [])) by (intro u; unfold weightless; apply (map_nth (map (fun e : nat * N => (fst e, 1%N))) (adj_of g) [])).
  assert (B' : in_bounds (written weighted (adj_of g))).
  { destruct B as [B1 B2]. split; [rewrite LW, <- LA; auto|]. rewrite LW, <- LA. unfold written. destruct weighted; [exact B2|]. intros u t w I. rewrite NT in I. apply in_map_iff in I as ([t' w'] & E & I). injection E as <- <-. split; [apply (B2 u t' w' I)|reflexivity]. }
  assert (NL' : no_loops (written weighted (adj_of g))).
  { unfold written. destruct weighted; [exact NL|]. intros u t w I. rewrite NT in I. apply in_map_iff in I as ([t' w'] & E & I). injection E as <- <-. apply (NL u t' w' I). }
  destruct (C28_reader_partial weighted _ _ _ F B') as (g' & E & N & R); [|auto|].
  { pose proof (Nat.div2_div (num_edges g)) as D. pose proof (Nat.div_le_upper_bound (num_edges g) 2 (num_edges g) ltac:(lia) ltac:(lia)). lia. }
  rewrite LW in N, R. exists g'. split; [exact E|]. split; [exact N|]. intros v Hv. rewrite R by auto.
  assert (X : nth v (adj_of g) [] = edges_of g v). { unfold adj_of. erewrite nth_indep; [|rewrite map_length, seq_length; exact Hv]. rewrite (map_nth (edges_of g) _ 0), seq_nth by lia. reflexivity. }
  transitivity (nth v (written weighted (adj_of g)) []).
  - rewrite <- drop_loops_nth by lia. rewrite drop_none by auto. reflexivity.
  - unfold written. destruct weighted; [exact X|]. rewrite NT, X. reflexivity.
Qed.
Print Assumptions C27_round_trip.

(** ** for graphs built through the interface *)
Theorem C27_built : forall weighted n m ops g, legal n ops -> build n m ops = Some g -> (N.of_nat n < 2 ^ 32)%N -> (N.of_nat (num_edges g) < 2 ^ 64)%N ->
  (forall s t w, In (s, (t, w)) (req_edges ops) -> (w < 2 ^ 64)%N) ->
  exists g', read_graph (write_graph weighted g) = Some (Some g') /\ num_nodes g' = n /\
    forall v, v < n -> edges_of g' v = (if weighted then edges_of g v else map (fun e => (fst e, 1%N)) (edges_of g v)).
Proof.
  intros weighted n m ops g L E Hn Hm Hw. destruct (C08_construction_exact n m ops L) as (g0 & E0 & N & _ & A & _). rewrite E in E0. injection E0 as <-.
  assert (X : forall v t w, In (t, w) (nth v (adj_of g) []) -> v < n /\ In (t, w) (req_adj ops v)).
  { intros v t w I. destruct (Nat.lt_ge_cases v n) as [Hv|Hv]; [|rewrite nth_overflow in I by (unfold adj_of; rewrite map_length, seq_length; lia); destruct I]. split; [auto|]. rewrite <- A by auto.
    unfold adj_of in I. erewrite nth_indep in I; [|rewrite map_length, seq_length, N; exact Hv]. rewrite (map_nth (edges_of g) _ 0), seq_nth in I by lia. exact I. }
  assert (Y : forall v t w, In (t, w) (req_adj ops v) -> In (v, (t, w)) (req_edges ops) /\ t <> v).
  { intros v t w I. unfold req_adj in I. apply in_map_iff in I as ([s e] & Ee & I). cbn [snd] in Ee. subst e. apply filter_In in I as [I C]. cbn [fst snd] in C. apply andb_prop in C as [C1 C2]. apply Nat.eqb_eq in C1. cbn [fst] in C1. subst s. split; [exact I|]. cbn [fst] in C2. apply Bool.negb_true_iff, Nat.eqb_neq in C2. exact C2. }
  destruct (C27_round_trip weighted g) as (g' & R1 & R2 & R3).
  - split; [unfold adj_of; rewrite map_length, seq_length, N; auto|]. intros u t w I. destruct (X u t w I) as [Hu I']. apply Y in I' as [I' _]. split; [|apply (Hw u t w I')]. unfold adj_of. rewrite map_length, seq_length, N. apply (proj2 (proj2 L) u t w I').
  - intros u t w I. destruct (X u t w I) as [Hu I']. apply Y in I'. apply I'.
  - exact Hm.
  - exists g'. rewrite N in *. auto.
Qed.
Print Assumptions C27_built.

(** ** non-vacuity: a graph with four nodes, one of them isolated; weights of several digits *)
Definition io_ops : list bop := [BNode; BEdge 0 1 12; BEdge 0 3 18446744073709551615; BNode; BEdge 1 0 12; BEdge 1 3 7; BNode; BNode; BEdge 3 0 18446744073709551615; BEdge 3 1 7]%N.
Example C27_ex : legal 4 io_ops /\ exists g, build 4 6 io_ops = Some g /\ num_edges g = 6 /\ in_bounds (adj_of g) /\ no_loops (adj_of g) /\
  exists g', read_graph (write_graph true g) = Some (Some g') /\ adj_of g' = [[(1, 12%N); (3, 18446744073709551615%N)]; [(0, 12%N); (3, 7%N)]; []; [(0, 18446744073709551615%N); (1, 7%N)]] /\
  length (write_graph true g) = 74.
Proof.
  split; [split; [reflexivity|split; [repeat constructor|cbn; intros s t w H; repeat (destruct H as [H|H]; [injection H as <- <- <-; lia|]); destruct H]]|].
  eexists. split; [vm_compute; reflexivity|]. split; [reflexivity|].
  split; [split; [vm_compute; reflexivity|]|split].
  - intros u t w H. do 4 (destruct u as [|u]; [vm_compute in H; repeat (destruct H as [H|H]; [injection H as <- <-; split; [vm_compute; lia|reflexivity]|]); destruct H|]). rewrite nth_overflow in H by (vm_compute; lia). destruct H.
  - intros u t w H. do 4 (destruct u as [|u]; [vm_compute in H; repeat (destruct H as [H|H]; [injection H as <- <-; lia|]); destruct H|]). rewrite nth_overflow in H by (vm_compute; lia). destruct H.
  - eexists. split; [vm_compute; reflexivity|]. split; vm_compute; reflexivity.
Qed.

(** an unweighted file with a comment, leading and trailing blanks, a self loop, no line feed at the end:
    "%x\n3 2 0\n  2 3 \n1 2\n%\n1" *)
Definition io_file : list nat := [37; 120; 10; 51; 32; 50; 32; 48; 10; 32; 32; 50; 32; 51; 32; 10; 49; 32; 50; 10; 37; 10; 49].
Definition io_rows : list (list (nat * N)) := [[(1, 1%N); (2, 1%N)]; [(0, 1%N); (1, 1%N)]; [(0, 1%N)]].
Lemma one_digit d : 48 <= d <= 57 -> numeral [d] (N.of_nat (d - 48)).
Proof. intro H. split; [discriminate|]. split; [intros c [<-|[]]; auto|]. unfold value. cbn [fold_left]. lia. Qed.
Lemma io_file_ok : metis_file false 2 io_rows io_file.
Proof.
  exists [[37; 120]], [51; 32; 50; 32; 48], [[32; 32; 50; 32; 51; 32]; [49; 32; 50]; [37]; [49]], false. split; [|split; [|split; [|split]]].
  - intros l [<-|[]]. exists [120]. split; [reflexivity|]. intros [H|[]]. discriminate H.
  - exists [51], [50], [32; 48]. split; [reflexivity|]. split; [apply (one_digit 51); lia|]. split; [apply (one_digit 50); lia|]. right. exists [48]. split; [reflexivity|apply (one_digit 48); lia].
  - assert (E : forall t, t < 9 -> entry false (t, 1%N) [49 + t]). { intros t Ht. split; [|reflexivity]. cbn [fst]. replace (N.of_nat t + 1)%N with (N.of_nat (49 + t - 48)) by lia. apply one_digit. lia. }
    apply nl_node; [exists 2, [50; 32; 51; 32]; split; [reflexivity|]|apply nl_node; [exists 0, [49; 32; 50]; split; [reflexivity|]|apply nl_comment; [exists []; split; [reflexivity|intros []]|apply nl_node; [exists 0, [49]; split; [reflexivity|]|constructor]]]].
    + apply (en_cons false (1, 1%N) (2, 1%N) [] [50] [51; 32]); [apply (E 1); lia|]. apply (en_last false (2, 1%N) [51] [32]); [apply (E 2); lia|intros c [<-|[]]; auto].
    + apply (en_cons false (0, 1%N) (1, 1%N) [] [49] [50]); [apply (E 0); lia|]. apply (en_last false (1, 1%N) [50] []); [apply (E 1); lia|intros c []].
    + apply (en_last false (0, 1%N) [49] []); [apply (E 0); lia|intros c []].
  - right. discriminate.
  - reflexivity.
Qed.
Example C28_ex : metis_file false 2 io_rows io_file /\ in_bounds io_rows /\ exists g, read_graph io_file = Some (Some g) /\ adj_of g = [[(1, 1%N); (2, 1%N)]; [(0, 1%N)]; [(0, 1%N)]].
Proof.
  split; [exact io_file_ok|]. split; [|eexists; split; vm_compute; reflexivity]. split; [reflexivity|].
  intros u t w H. do 3 (destruct u as [|u]; [cbn in H; repeat (destruct H as [H|H]; [injection H as <- <-; split; [cbn; lia|reflexivity]|]); destruct H|]). rewrite nth_overflow in H by (cbn; lia). destruct H.
Qed.

(** ** the full claim fails for weighted files with self loops: the weight of the loop is read as a neighbour.
    "3 2 1\n1 3 2 4 \n1 4\n\n" *)
Definition C28_statement : Prop := forall weighted m rows bytes, metis_file weighted m rows bytes -> in_bounds rows -> (m < 2 ^ 64)%N ->
  exists g, read_graph bytes = Some (Some g) /\ num_nodes g = length rows /\
    forall v, v < length rows -> edges_of g v = filter (fun e => negb (fst e =? v)) (nth v rows []).
Definition loop_file : list nat := [51; 32; 50; 32; 49; 10; 49; 32; 51; 32; 50; 32; 52; 32; 10; 49; 32; 52; 10; 10].
Definition loop_rows : list (list (nat * N)) := [[(0, 3%N); (1, 4%N)]; [(0, 4%N)]; []].
Lemma loop_file_ok : metis_file true 2 loop_rows loop_file.
Proof.
  exists [], [51; 32; 50; 32; 49], [[49; 32; 51; 32; 50; 32; 52; 32]; [49; 32; 52]; []], true. split; [intros l []|]. split; [|split; [|split; [auto|reflexivity]]].
  - exists [51], [50], [32; 49]. split; [reflexivity|]. split; [apply (one_digit 51); lia|]. split; [apply (one_digit 50); lia|]. exists [49]. split; [reflexivity|apply (one_digit 49); lia].
  - assert (E : forall t w, t < 9 -> w <= 9 -> entry true (t, N.of_nat w) [49 + t; 32; 48 + w]).
    { intros t w Ht Hw. exists [49 + t], [48 + w]. split; [reflexivity|]. cbn [fst snd]. split; [replace (N.of_nat t + 1)%N with (N.of_nat (49 + t - 48)) by lia; apply one_digit; lia|].
      replace (N.of_nat w) with (N.of_nat (48 + w - 48)) by lia. apply one_digit. lia. }
    apply nl_node; [exists 0, [49; 32; 51; 32; 50; 32; 52; 32]; split; [reflexivity|]|apply nl_node; [exists 0, [49; 32; 52]; split; [reflexivity|]|apply nl_node; [exists 0, []; split; [reflexivity|]|constructor]]].
    + apply (en_cons true (0, 3%N) (1, 4%N) [] [49; 32; 51] [50; 32; 52; 32]); [apply (E 0 3); lia|]. apply (en_last true (1, 4%N) [50; 32; 52] [32]); [apply (E 1 4); lia|intros c [<-|[]]; auto].
    + apply (en_last true (0, 4%N) [49; 32; 52] []); [apply (E 0 4); lia|intros c []].
    + apply en_nil. intros c [].
Qed.
Theorem C28_loops_refuted : ~ C28_statement.
Proof.
  intro H. destruct (H true 2%N loop_rows loop_file loop_file_ok) as (g & E & _ & R).
  - split; [reflexivity|]. intros u t w I. do 3 (destruct u as [|u]; [cbn in I; repeat (destruct I as [I|I]; [injection I as <- <-; split; [cbn; lia|reflexivity]|]); destruct I|]). rewrite nth_overflow in I by (cbn; lia). destruct I.
  - reflexivity.
  - specialize (R 0 ltac:(cbn; lia)). vm_compute in E. injection E as <-. vm_compute in R. discriminate R.
Qed.
Print Assumptions C28_loops_refuted.

(** ** other files the METIS manual allows: two spaces between neighbours end the line ("3 2\n2  3\n1\n1\n"), and with
    format 11 (vertex weights) the weight of the node is read as a neighbour ("2 1 11\n9 2 5 \n9 1 5 \n") *)
Example C28_two_spaces : option_map (option_map adj_of) (read_graph [51; 32; 50; 10; 50; 32; 32; 51; 10; 49; 10; 49; 10]) = Some (Some [[(1, 1%N)]; [(0, 1%N)]; [(0, 1%N)]]).
Proof. vm_compute. reflexivity. Qed.
Example C28_vertex_weights : option_map (option_map adj_of) (read_graph [50; 32; 49; 32; 49; 49; 10; 57; 32; 50; 32; 53; 32; 10; 57; 32; 49; 32; 53; 32; 10]) = Some (Some [[(8, 2%N); (4, 0%N)]; [(8, 1%N); (4, 0%N)]]).
Proof. vm_compute. reflexivity. Qed.
