(* P_GraphIO.v - proofs about M_GraphIO: the reader on METIS files. *)
From Verif Require Import SpecCut SpecMetis M_Contract P_Contract M_GraphIO.

Lemma split_line l s : ~ In 10 l -> split_lines (l ++ 10 :: s) = l :: split_lines s.
Proof.
  induction l as [|c l IH]; intro H; [reflexivity|]. cbn [app split_lines]. destruct (Nat.eqb_spec c 10) as [->|_]; [exfalso; apply H; left; auto|].
  rewrite IH by (intro X; apply H; right; auto). reflexivity.
Qed.
Lemma split_end l : ~ In 10 l -> l <> [] -> split_lines l = [l].
Proof.
  induction l as [|c l IH]; intros H N; [congruence|]. cbn [split_lines]. destruct (Nat.eqb_spec c 10) as [->|_]; [exfalso; apply H; left; auto|].
  destruct l as [|d l]; [reflexivity|]. rewrite IH; [reflexivity|intro X; apply H; right; auto|discriminate].
Qed.
Lemma split_join final : forall ls, (forall l, In l ls -> ~ In 10 l) -> final = true \/ last ls [] <> [] -> split_lines (join final ls) = ls.
Proof.
  induction ls as [|l ls IH]; intros H F; [reflexivity|]. cbn [join]. destruct ls as [|l' ls].
  - destruct final; [apply split_line, H; left; auto|]. rewrite app_nil_r. apply split_end; [apply H; left; auto|]. destruct F as [F|F]; [discriminate F|exact F].
  - rewrite split_line by (apply H; left; auto). f_equal. apply IH; [intros x Hx; apply H; right; auto|exact F].
Qed.

(** ** numerals *)
Definition val64 (ds : list nat) (x : N) : N := fold_left (fun x c => (x * 10 + N.of_nat (c - 48)) mod 2 ^ 64)%N ds x.
Definition val_from (ds : list nat) (x : N) : N := fold_left (fun x c => x * 10 + N.of_nat (c - 48))%N ds x.

Lemma digit_true c : 48 <= c <= 57 -> is_digit c = true.
Proof. intros [A B]. unfold is_digit. apply Nat.leb_le in A, B. rewrite A, B. reflexivity. Qed.

Definition stops (s : list nat) : Prop := match s with [] => True | c :: _ => is_digit c = false end.

Lemma atoi_go_ok s : stops s -> forall ds x p, (forall c, In c ds -> 48 <= c <= 57) -> atoi_go (ds ++ s) x p = (val64 ds x, S (p + length ds)).
Proof.
  intros Hs. induction ds as [|c ds IH]; intros x p H.
  - cbn [app val64 fold_left length]. rewrite Nat.add_0_r. destruct s as [|c s]; [reflexivity|]. cbn [atoi_go]. cbn in Hs. rewrite Hs. reflexivity.
  - cbn [app atoi_go]. rewrite (digit_true c) by (apply H; left; auto). rewrite IH by (intros; apply H; right; auto). cbn [val64 fold_left length]. f_equal. lia.
Qed.
Lemma val64_mod : forall ds x y, (x = y mod 2 ^ 64)%N -> val64 ds x = (val_from ds y mod 2 ^ 64)%N.
Proof.
  induction ds as [|c ds IH]; intros x y E; [exact E|]. cbn [val64 val_from fold_left]. apply IH. subst x.
  rewrite (N.add_mod (y mod 2 ^ 64 * 10)), (N.mul_mod (y mod 2 ^ 64) 10), N.mod_mod, <- (N.mul_mod y 10), <- N.add_mod by (intro X; discriminate X). reflexivity.
Qed.
Lemma numeral_64 ds x : numeral ds x -> (x < 2 ^ 64)%N -> val64 ds 0 = x.
Proof. intros (_ & _ & <-) H. rewrite (val64_mod ds 0 0) by reflexivity. apply N.mod_small. exact H. Qed.

Lemma stops_32 s : stops (32 :: s). Proof. reflexivity. Qed.
Lemma blanks_stop s : blanks s -> stops s.
Proof. intro H. destruct s as [|c s]; [exact I|]. destruct (H c (or_introl eq_refl)) as [->|[->| ->]]; reflexivity. Qed.

Lemma skipn_pre {A} (pre s : list A) : skipn (length pre) (pre ++ s) = s.
Proof. rewrite skipn_app, Nat.sub_diag, skipn_all. reflexivity. Qed.

Lemma fast_atoi_ok pre ds s x : numeral ds x -> (x < 2 ^ 64)%N -> stops s -> fast_atoi (pre ++ ds ++ s) (length pre) = Some (x, S (length pre + length ds)).
Proof.
  intros D B Hs. unfold fast_atoi. destruct (Nat.ltb_spec (length (pre ++ ds ++ s)) (length pre)) as [X|_]; [rewrite app_length in X; lia|].
  rewrite skipn_pre. rewrite atoi_go_ok; [|auto|apply D]. rewrite (numeral_64 ds x) by auto. reflexivity.
Qed.

Lemma read_blank fuel line node rw pre s : line = pre ++ s -> blanks s -> read_edges (S fuel) line (length pre) node rw = Some [].
Proof.
  intros -> B. cbn [read_edges]. destruct (Nat.ltb_spec (length pre) (length (pre ++ s))) as [L|L]; [|reflexivity]. destruct s as [|c s]; [rewrite app_nil_r in L; lia|].
  unfold fast_atoi. destruct (Nat.ltb_spec (length (pre ++ c :: s)) (length pre)); [lia|]. rewrite skipn_pre. pose proof (blanks_stop _ B) as X. cbn in X. cbn [atoi_go]. rewrite X. reflexivity.
Qed.
Lemma read_past fuel line p node rw : length line <= p -> read_edges (S fuel) line p node rw = Some [].
Proof. intro H. cbn [read_edges]. apply Nat.ltb_ge in H. rewrite H. reflexivity. Qed.

(** the behaviour on one entry *)
Definition keep (rw : bool) (node : nat) (es : list (nat * N)) : list bop := map (fun e => BEdge node (fst e) (snd e)) (filter (fun e => negb (fst e =? node)) es).

Lemma read_entry fuel pre e a s node rw : entry rw e a -> stops s -> (N.of_nat (fst e) + 1 < 2 ^ 32)%N -> (snd e < 2 ^ 64)%N -> (rw = true -> fst e <> node) ->
  read_edges (S fuel) (pre ++ a ++ s) (length pre) node rw =
  option_map (app (keep rw node [e])) (read_edges fuel (pre ++ a ++ s) (S (length pre + length a)) node rw).
Proof.
  intros E Hs Hb Hw NL. destruct e as [t w]. cbn [fst snd] in *. assert (P32 : (2 ^ 32 < 2 ^ 64)%N) by reflexivity.
  assert (Na : a <> []). { destruct rw; cbn [entry] in E; [destruct E as (x & y & -> & (X & _) & _); destruct x; [congruence|discriminate]|apply E]. }
  assert (LT : (length pre <? length (pre ++ a ++ s)) = true). { apply Nat.ltb_lt. rewrite !app_length. destruct a; [congruence|]. cbn. lia. }
  cbn [read_edges]. rewrite LT. unfold entry in E. cbn [fst snd] in E. destruct rw.
  - destruct E as (x & y & -> & Dx & Dy).
    rewrite <- app_assoc. cbn [app]. rewrite (fast_atoi_ok pre x (32 :: y ++ s) _ Dx) by (try apply stops_32; lia).
    rewrite N.mod_small by lia. replace (N.to_nat (N.of_nat t + 1)) with (S t) by lia. cbn [Nat.eqb Nat.sub]. rewrite Nat.sub_0_r.
    specialize (NL eq_refl). apply Nat.eqb_neq in NL. unfold keep. cbn [filter fst]. rewrite NL. cbn [negb map fst snd].
    replace (pre ++ x ++ 32 :: y ++ s) with ((pre ++ x ++ [32]) ++ y ++ s) by (rewrite <- !app_assoc; reflexivity).
    replace (S (length pre + length x)) with (length (pre ++ x ++ [32])) by (rewrite !app_length; cbn; lia).
    rewrite (fast_atoi_ok (pre ++ x ++ [32]) y s _ Dy) by auto.
    replace (S (length (pre ++ x ++ [32]) + length y)) with (S (length pre + length (x ++ 32 :: y))) by (rewrite !app_length; cbn; lia). reflexivity.
  - destruct E as [D ->]. rewrite (fast_atoi_ok pre a s _ D) by (auto; lia). rewrite N.mod_small by lia. replace (N.to_nat (N.of_nat t + 1)) with (S t) by lia. cbn [Nat.eqb Nat.sub]. rewrite Nat.sub_0_r.
    unfold keep. cbn [filter fst]. destruct (t =? node); cbn [negb map fst snd app]; [|reflexivity]. destruct (read_edges _ _ _ _ _); reflexivity.
Qed.

Lemma keep_cons rw node e es : keep rw node (e :: es) = keep rw node [e] ++ keep rw node es.
Proof. unfold keep. cbn [filter]. destruct (negb (fst e =? node)); reflexivity. Qed.

Lemma read_edges_ok node rw : forall es s, entries rw es s -> forall pre fuel,
  (forall e, In e es -> (N.of_nat (fst e) + 1 < 2 ^ 32)%N /\ (snd e < 2 ^ 64)%N) -> (rw = true -> forall e, In e es -> fst e <> node) -> length es < fuel ->
  read_edges fuel (pre ++ s) (length pre) node rw = Some (keep rw node es).
Proof.
  induction 1 as [s B|e a s E B|e e' es a s E _ IH]; intros pre fuel HB HL F; (destruct fuel as [|fuel]; [cbn in F; lia|]).
  - apply (read_blank fuel _ node rw pre s); auto.
  - destruct (HB e (or_introl eq_refl)). rewrite (read_entry fuel pre e a s node rw E (blanks_stop s B)) by (auto; intros; apply HL; auto; left; auto).
    cbn in F. destruct fuel as [|fuel]; [lia|]. destruct s as [|c s].
    + rewrite app_nil_r. rewrite read_past by (rewrite app_length; lia). cbn [option_map]. rewrite app_nil_r. reflexivity.
    + replace (S (length pre + length a)) with (length (pre ++ a ++ [c])) by (rewrite !app_length; cbn; lia).
      rewrite (read_blank fuel _ node rw (pre ++ a ++ [c]) s); [cbn [option_map]; rewrite app_nil_r; reflexivity|rewrite <- !app_assoc; reflexivity|intros x Hx; apply B; right; auto].
  - destruct (HB e (or_introl eq_refl)). rewrite (read_entry fuel pre e a (32 :: s) node rw E (stops_32 s)) by (auto; intros; apply HL; auto; left; auto).
    replace (S (length pre + length a)) with (length (pre ++ a ++ [32])) by (rewrite !app_length; cbn; lia).
    replace (pre ++ a ++ 32 :: s) with ((pre ++ a ++ [32]) ++ s) by (rewrite <- !app_assoc; reflexivity).
    rewrite IH; [|intros; apply HB; right; auto|intros; apply HL; auto; right; auto|cbn in F |- *; lia]. cbn [option_map]. rewrite (keep_cons rw node e (e' :: es)). reflexivity.
Qed.

(** ** one line *)
Lemma skip_spaces_rep k s p : skip_spaces (repeat 32 k ++ s) p = skip_spaces s (p + k).
Proof. revert p. induction k as [|k IH]; intro p; [rewrite Nat.add_0_r; reflexivity|]. cbn [repeat app skip_spaces]. change (32 =? 32) with true. cbn match. rewrite IH. replace (S p + k) with (p + S k) by lia. reflexivity. Qed.
Lemma skip_blanks : forall s, blanks s -> forall p, exists pre s', s = pre ++ s' /\ skip_spaces s p = p + length pre /\ blanks s'.
Proof.
  induction s as [|c s IH]; intros B p; [exists [], []; split; [auto|]; split; [cbn; lia|auto]|]. cbn [skip_spaces]. destruct (Nat.eqb_spec c 32) as [->|N].
  - destruct (IH (fun x H => B x (or_intror H)) (S p)) as (pre & s' & -> & E & B'). exists (32 :: pre), s'. split; [reflexivity|]. split; [rewrite E; cbn; lia|auto].
  - exists [], (c :: s). split; [reflexivity|]. split; [cbn; lia|auto].
Qed.
Lemma entry_head rw e a : entry rw e a -> exists c a', a = c :: a' /\ 48 <= c <= 57.
Proof.
  unfold entry. destruct rw; [intros (x & y & -> & (N & D & _) & _)|intros [(N & D & _) _]].
  - destruct x as [|c x]; [congruence|]. exists c, (x ++ 32 :: y). split; [reflexivity|]. apply D. left; auto.
  - destruct a as [|c a]; [congruence|]. exists c, a. split; [reflexivity|]. apply D. left; auto.
Qed.
Lemma entries_head rw e es s : entries rw (e :: es) s -> exists c s', s = c :: s' /\ 48 <= c <= 57.
Proof. inversion 1 as [|? a ? E|? ? ? a ? E]; subst; destruct (entry_head _ _ _ E) as (c & a' & -> & D); [exists c, (a' ++ s0)|exists c, (a' ++ 32 :: s0)]; auto. Qed.
Lemma entries_len rw es s : entries rw es s -> length es <= length s.
Proof.
  induction 1 as [s B|e a s E B|e e' es a s E _ IH]; cbn [length] in *; [lia| |]; destruct (entry_head _ _ _ E) as (c & a' & -> & _); rewrite app_length; cbn in *; lia.
Qed.

Lemma line_ok node rw es l : node_line rw es l -> (forall e, In e es -> (N.of_nat (fst e) + 1 < 2 ^ 32)%N /\ (snd e < 2 ^ 64)%N) -> (rw = true -> forall e, In e es -> fst e <> node) ->
  is_comment l = false /\ read_edges (S (length l)) l (skip_spaces l 0) node rw = Some (keep rw node es).
Proof.
  intros (k & s & -> & E) HB HL. destruct es as [|e es].
  - inversion E as [? B| |]; subst. split.
    + destruct k as [|k]; [|reflexivity]. destruct s as [|c s]; [reflexivity|]. destruct (B c (or_introl eq_refl)) as [->|[->| ->]]; reflexivity.
    + rewrite skip_spaces_rep. cbn [Nat.add]. destruct (skip_blanks s B k) as (pre & s' & -> & X & B'). rewrite X. replace (k + length pre) with (length (repeat 32 k ++ pre)) by (rewrite app_length, repeat_length; reflexivity).
      apply (read_blank _ _ node rw (repeat 32 k ++ pre) s'); [rewrite <- app_assoc; reflexivity|auto].
  - destruct (entries_head _ _ _ _ E) as (c & s' & Es & D). split.
    + destruct k as [|k]; [|reflexivity]. rewrite Es. cbn. apply Nat.eqb_neq. lia.
    + rewrite skip_spaces_rep, Es. cbn [skip_spaces Nat.add]. destruct (Nat.eqb_spec c 32); [lia|]. rewrite <- Es. rewrite <- (repeat_length 32 k) at 3. apply read_edges_ok; auto.
      pose proof (entries_len _ _ _ E). rewrite app_length. lia.
Qed.

(** ** all lines *)
Definition ops_from (rw : bool) (node : nat) (rows : list (list (nat * N))) : list bop :=
  concat (map (fun p => BNode :: keep rw (fst p) (snd p)) (combine (seq node (length rows)) rows)).

Lemma body_ok rw n : forall rows ls, node_lines rw rows ls -> forall node, node + length rows <= n ->
  (forall i e, In e (nth i rows []) -> (N.of_nat (fst e) + 1 < 2 ^ 32)%N /\ (snd e < 2 ^ 64)%N) -> (rw = true -> forall i e, In e (nth i rows []) -> fst e <> node + i) ->
  read_body ls node n rw = Some (node + length rows, ops_from rw node rows).
Proof.
  induction 1 as [|rows l ls (s & -> & _) _ IH|es rows l ls L _ IH]; intros node Hn HB HL.
  - cbn. rewrite Nat.add_0_r. reflexivity.
  - cbn [read_body is_comment]. rewrite Nat.eqb_refl. apply IH; auto.
  - destruct (line_ok node rw es l L) as [C R]; [intros e He; apply (HB 0 e He)|intros X e He; specialize (HL X 0 e He); lia|].
    cbn [read_body length] in *. rewrite C. destruct (Nat.ltb_spec n node); [lia|]. rewrite R. rewrite (IH (S node)); [|lia|intros i; apply (HB (S i))|intros X i e He; specialize (HL X (S i) e He); lia].
    f_equal. f_equal. lia.
Qed.

(** ** the header *)
Lemma take_digits_ok s : stops s -> forall ds x k, (forall c, In c ds -> 48 <= c <= 57) -> take_digits (ds ++ s) x k = (val_from ds x, k + length ds, s).
Proof.
  intros Hs. induction ds as [|c ds IH]; intros x k H.
  - cbn [app val_from fold_left length]. rewrite Nat.add_0_r. destruct s as [|c s]; [reflexivity|]. cbn [take_digits]. cbn in Hs. rewrite Hs. reflexivity.
  - cbn [app take_digits]. rewrite (digit_true c) by (apply H; left; auto). rewrite IH by (intros; apply H; right; auto). cbn [val_from fold_left length]. f_equal. f_equal. lia.
Qed.
Lemma skip_ws_digit c s : 48 <= c <= 57 -> skip_ws (c :: s) = c :: s.
Proof.
  intro H. cbn [skip_ws]. unfold is_space. destruct (Nat.eqb_spec c 32); [lia|]. destruct (Nat.leb_spec 9 c), (Nat.leb_spec c 13); cbn; try reflexivity; lia.
Qed.
Lemma extract_ok max ds s x pre : numeral ds x -> (x <= max)%N -> stops s -> pre = [] \/ pre = [32] ->
  extract max (Some (pre ++ ds ++ s)) = (Some x, match s with [] => None | _ => Some s end).
Proof.
  intros (N & D & E) B Hs P. unfold extract. destruct ds as [|c ds]; [congruence|].
  assert (W : skip_ws (pre ++ (c :: ds) ++ s) = (c :: ds) ++ s).
  { destruct P as [-> | ->]; cbn [app]; [apply skip_ws_digit, D; left; auto|]. change (skip_ws (32 :: c :: ds ++ s)) with (skip_ws (c :: ds ++ s)). apply skip_ws_digit, D; left; auto. }
  rewrite W. cbn [app]. change (c :: ds ++ s) with ((c :: ds) ++ s). rewrite (take_digits_ok s Hs (c :: ds) 0%N 0 D). cbn [length Nat.add]. change (val_from (c :: ds) 0) with (value (c :: ds)). rewrite E.
  destruct (N.ltb_spec max x); [lia|]. reflexivity.
Qed.

Lemma parse_header_ok n m rw h : header n m rw h -> (n <= u64max)%N -> (m <= u64max)%N -> exists m', parse_header h = Some (n, m', rw).
Proof.
  intros (a & b & f & -> & A & B & F) Hn Hm. unfold parse_header. change (a ++ 32 :: b ++ f) with ([] ++ a ++ 32 :: b ++ f). rewrite (extract_ok u64max a (32 :: b ++ f) n [] A Hn (stops_32 _) (or_introl eq_refl)).
  unfold format in F. destruct rw.
  - destruct F as (d & -> & D). change (32 :: b ++ 32 :: d) with ([32] ++ b ++ 32 :: d). rewrite (extract_ok u64max b (32 :: d) m [32] B Hm (stops_32 _) (or_intror eq_refl)).
    assert (X : extract 2147483647 (Some (32 :: d)) = (Some 1%N, None)). { pose proof (extract_ok 2147483647 d [] 1%N [32] D ltac:(lia) I (or_intror eq_refl)) as X. rewrite app_nil_r in X. exact X. }
    rewrite X. eexists. reflexivity.
  - destruct F as [->|(d & -> & D)].
    + change (32 :: b ++ []) with ([32] ++ b ++ []). rewrite (extract_ok u64max b [] m [32] B Hm I (or_intror eq_refl)). eexists. reflexivity.
    + change (32 :: b ++ 32 :: d) with ([32] ++ b ++ 32 :: d). rewrite (extract_ok u64max b (32 :: d) m [32] B Hm (stops_32 _) (or_intror eq_refl)).
      assert (X : extract 2147483647 (Some (32 :: d)) = (Some 0%N, None)). { pose proof (extract_ok 2147483647 d [] 0%N [32] D ltac:(lia) I (or_intror eq_refl)) as X. rewrite app_nil_r in X. exact X. }
      rewrite X. eexists. reflexivity.
Qed.

Lemma no_lf_numeral ds x : numeral ds x -> ~ In 10 ds.
Proof. intros (_ & D & _) H. specialize (D 10 H). lia. Qed.
Lemma no_lf_blanks s : blanks s -> ~ In 10 s.
Proof. intros B H. destruct (B 10 H) as [X|[X|X]]; discriminate X. Qed.
Lemma no_lf_entry rw e s : entry rw e s -> ~ In 10 s.
Proof.
  unfold entry. destruct rw; [intros (a & b & -> & A & B) H|intros [A _]; eapply no_lf_numeral; eauto].
  apply in_app_or in H as [H|[H|H]]; [exact (no_lf_numeral _ _ A H)|discriminate H|exact (no_lf_numeral _ _ B H)].
Qed.
Lemma no_lf_entries rw es s : entries rw es s -> ~ In 10 s.
Proof.
  induction 1 as [s B|e a s E B|e e' es a s E _ IH]; [apply no_lf_blanks; auto| |]; intro H; apply in_app_or in H as [H|H]; try exact (no_lf_entry _ _ _ E H); [exact (no_lf_blanks _ B H)|destruct H as [H|H]; [discriminate H|auto]].
Qed.
Lemma no_lf_header n m rw h : header n m rw h -> ~ In 10 h.
Proof.
  intros (a & b & f & -> & A & B & F) H. apply in_app_or in H as [H|[H|H]]; [exact (no_lf_numeral _ _ A H)|discriminate H|]. apply in_app_or in H as [H|H]; [exact (no_lf_numeral _ _ B H)|].
  unfold format in F. destruct rw; [destruct F as (d & -> & D)|destruct F as [->|(d & -> & D)]]; [|destruct H|]; destruct H as [H|H]; try discriminate H; exact (no_lf_numeral _ _ D H).
Qed.
Lemma no_lf_lines rw rows ls : node_lines rw rows ls -> forall l, In l ls -> ~ In 10 l.
Proof.
  induction 1 as [|rows l ls (s & -> & C) _ IH|es rows l ls (k & s & -> & E) _ IH]; intros x Hx; [destruct Hx| |]; (destruct Hx as [<-|Hx]; [|apply IH; auto]).
  - intros [H|H]; [discriminate H|auto].
  - intro H. apply in_app_or in H as [H|H]; [apply repeat_spec in H; discriminate H|exact (no_lf_entries _ _ _ E H)].
Qed.

Lemma header_line_ok pre h ls : (forall l, In l pre -> comment l) -> is_comment h = false -> header_line (pre ++ h :: ls) = Some (h, ls).
Proof.
  intros P H. induction pre as [|l pre IH]; cbn [app header_line]; [rewrite H; reflexivity|]. destruct (P l (or_introl eq_refl)) as (s & -> & _). cbn [is_comment]. rewrite Nat.eqb_refl. apply IH. intros; apply P; right; auto.
Qed.

(** ** the rows built *)
Lemma drop_loops_from node (rows : list (list (nat * N))) : concat (map (fun p => BNode :: keep true (fst p) (snd p)) (combine (seq node (length rows)) rows)) =
  flat_map (fun p => BNode :: map (fun e => BEdge p (fst e) (snd e)) (filter (fun e => negb (fst e =? p)) (nth (p - node) rows []))) (seq node (length rows)).
Proof.
  revert node. induction rows as [|es rows IH]; intro node; [reflexivity|]. cbn [length seq combine map concat flat_map fst snd]. rewrite Nat.sub_diag. cbn [nth]. unfold keep at 1. cbn [app]. f_equal. f_equal. rewrite IH.
  rewrite !flat_map_concat_map. f_equal. apply map_ext_in. intros p Hp. apply in_seq in Hp. replace (p - node) with (S (p - S node)) by lia. reflexivity.
Qed.
Lemma drop_loops_len rows : length (drop_loops rows) = length rows. Proof. unfold drop_loops. rewrite map_length, seq_length. reflexivity. Qed.
Lemma drop_loops_nth rows u : u < length rows -> nth u (drop_loops rows) [] = filter (fun e => negb (fst e =? u)) (nth u rows []).
Proof.
  intro H. unfold drop_loops. erewrite nth_indep; [|rewrite map_length, seq_length; exact H]. rewrite (map_nth (fun u => filter (fun e => negb (fst e =? u)) (nth u rows [])) (seq 0 (length rows)) 0), seq_nth by auto. reflexivity.
Qed.
Lemma ops_script rw rows : ops_from rw 0 rows = script_of (drop_loops rows).
Proof.
  unfold ops_from. rewrite drop_loops_from. unfold script_of. rewrite drop_loops_len, !flat_map_concat_map. f_equal. apply map_ext_in. intros p Hp. apply in_seq in Hp. rewrite drop_loops_nth, Nat.sub_0_r by lia. reflexivity.
Qed.

Theorem read_ok rw m rows bytes : metis_file rw m rows bytes -> in_bounds rows -> (m < 2 ^ 64)%N -> (rw = true -> no_loops rows) ->
  exists g, read_graph bytes = Some (Some g) /\ adj_of g = drop_loops rows.
Proof.
  intros (pre & h & ls & final & P & H & L & F & ->) [Bn Bd] Hm NL. unfold read_graph.
  assert (P32 : (2 ^ 32 < 2 ^ 64)%N) by reflexivity. assert (U : (u64max + 1 = 2 ^ 64)%N) by reflexivity.
  assert (HC : is_comment h = false). { destruct H as (a & b & f & -> & (N & D & _) & _). destruct a as [|c a]; [congruence|]. cbn. apply Nat.eqb_neq. specialize (D c (or_introl eq_refl)). lia. }
  rewrite split_join.
  2:{ intros l Hl. apply in_app_or in Hl as [Hl|[<-|Hl]]; [destruct (P l Hl) as (s & -> & C); intros [X|X]; [discriminate X|auto]|eapply no_lf_header; eauto|eapply no_lf_lines; eauto]. }
  2:{ destruct F as [F|F]; [auto|right]. intro X. apply F. revert X. replace (last (pre ++ h :: ls) []) with (last (h :: ls) []); [auto|]. clear. induction pre as [|l pre IH]; [reflexivity|]. rewrite IH. destruct pre; reflexivity. }
  rewrite (header_line_ok pre h ls P HC). destruct (parse_header_ok _ m rw h H) as (m' & E); [lia|lia|]. rewrite E.
  rewrite N.mod_small, Nat2N.id by lia. rewrite (body_ok rw (length rows) rows ls L 0); [|lia| |].
  2:{ intros i [t w] He. destruct (Bd i t w He). cbn [fst snd]. split; [lia|auto]. }
  2:{ intros X i [t w] He. apply (NL X i t w He). }
  cbn [Nat.add]. rewrite ops_script.
  destruct (build_rows 0 (drop_loops rows)) as (g & B & A).
  { intros u v w I. rewrite drop_loops_len. destruct (Nat.lt_ge_cases u (length rows)) as [Hu|Hu]; [|rewrite nth_overflow in I by (rewrite drop_loops_len; auto); destruct I].
    rewrite drop_loops_nth in I by auto. apply filter_In in I as [I X]. cbn [fst] in X. apply Bool.negb_true_iff, Nat.eqb_neq in X. split; [apply (Bd u v w I)|auto]. }
  rewrite drop_loops_len in B. unfold build in B. destruct (build_ops (start_construction (length rows) 0) (script_of (drop_loops rows))) as [g0|]; [|discriminate B]. rewrite Nat.eqb_refl, B. cbn [option_map].
  exists (compute_degrees g). split; [reflexivity|]. rewrite <- A. unfold adj_of, compute_degrees, edges_of, first_edge, first_invalid, num_nodes. destruct (c_comp g); reflexivity.
Qed.
