(* P_Sparsify.v - the matching of sparsify.h and the graph built from it. *)
From Verif Require Import M_Sparsify P_Cut M_Contract P_Contract.

(** * one row *)
Definition to1 (row : list (nat * N)) (q : nat) : N := sumN snd (filter (fun e => fst e =? q) row).
Definition bump1 (t : nat) (w : N) (e : nat * N) : nat * N := if fst e =? t then (fst e, (snd e + w)%N) else e.

Lemma bump1_fst t w row : map fst (map (bump1 t w) row) = map fst row.
Proof. rewrite map_map. apply map_ext. intro e. unfold bump1. destruct (fst e =? t); reflexivity. Qed.
Lemma to1_out row q : ~ In q (map fst row) -> to1 row q = 0%N.
Proof.
  unfold to1. induction row as [|[a b] row IH]; simpl; intro H; [auto|].
  destruct (Nat.eqb_spec a q); [tauto|]. apply IH. tauto.
Qed.
Lemma to1_cons a b row q : to1 ((a, b) :: row) q = ((if Nat.eqb a q then b else 0) + to1 row q)%N.
Proof. unfold to1. simpl. destruct (a =? q); simpl; lia. Qed.
Lemma bump1_sum t w row q : NoDup (map fst row) -> In t (map fst row) -> to1 (map (bump1 t w) row) q = (to1 row q + (if Nat.eqb t q then w else 0))%N.
Proof.
  induction row as [|[a b] row IH]; simpl; intros ND I; [contradiction|]. inversion ND; subst. unfold bump1 at 1. cbn [fst snd].
  destruct (Nat.eqb_spec a t) as [->|Ne].
  - rewrite !to1_cons. assert (E : map (bump1 t w) row = row).
    { rewrite <- (map_id row) at 2. apply map_ext_in. intros [x y] Ix. unfold bump1. cbn [fst]. destruct (Nat.eqb_spec x t) as [->|]; auto.
      exfalso. apply H1. apply in_map_iff. exists (t, y). auto. }
    rewrite E. destruct (t =? q); lia.
  - rewrite !to1_cons, IH; [lia|auto|]. destruct I; [congruence|auto].
Qed.

Record rowi (cm : list nat) (c cnt : nat) (es row : list (nat * N)) : Prop := {
  rw_nd : NoDup (map fst row);
  rw_in : forall q w, In (q, w) row -> q < cnt /\ q <> c;
  rw_sum : forall q, q <> c -> to1 row q = toq cm q es }.

Lemma rm_add_ok cm c cnt es row x w : rowi cm c cnt es row -> nth x cm 0 <> c -> nth x cm 0 < cnt -> rowi cm c cnt (es ++ [(x, w)]) (rm_add row (nth x cm 0) w).
Proof.
  intros [A B D] Nc Lt. set (t := nth x cm 0) in *.
  assert (TE : forall q, toq cm q (es ++ [(x, w)]) = (toq cm q es + (if Nat.eqb t q then w else 0))%N) by (intro q; rewrite toq_app, toq_one; reflexivity).
  unfold rm_add. destruct (existsb (fun e => fst e =? t) row) eqn:E.
  - apply existsb_exists in E. destruct E as [[a b] [I Ea]]. apply Nat.eqb_eq in Ea. cbn [fst] in Ea. subst a.
    change (map _ row) with (map (bump1 t w) row). constructor.
    + rewrite bump1_fst. exact A.
    + intros q v Iq. assert (In q (map fst row)). { rewrite <- (bump1_fst t w). apply in_map_iff. exists (q, v). auto. }
      apply in_map_iff in H. destruct H as [[q' v'] [<- H]]. eapply B; eauto.
    + intros q Nq. rewrite bump1_sum; auto. rewrite D, TE by auto. reflexivity. apply in_map_iff. exists (t, b). auto.
  - assert (Nt : ~ In t (map fst row)).
    { intro I. apply in_map_iff in I. destruct I as [[a b] [Ea I]]. cbn [fst] in Ea. subst a.
      assert (existsb (fun e => fst e =? t) row = true); [|congruence]. apply existsb_exists. exists (t, b). split; auto. apply Nat.eqb_refl. }
    constructor.
    + rewrite map_app. simpl. apply (Permutation_NoDup (l := t :: map fst row)); [apply Permutation_cons_append|constructor; auto].
    + intros q v I. apply in_app_or in I. destruct I as [I|[I|[]]]; [eapply B; eauto|]. injection I as <- <-. auto.
    + intros q Nq. rewrite TE, <- D by auto. unfold to1. rewrite filter_app, sumN_app. simpl. destruct (t =? q); simpl; lia.
Qed.

Lemma rm_edges_ok cm c cnt : forall es old row, rowi cm c cnt old row -> (forall x w, In (x, w) es -> nth x cm 0 < cnt) ->
  exists row', rm_edges cm cnt c row es = Some row' /\ rowi cm c cnt (old ++ es) row'.
Proof.
  induction es as [|[x w] es IH]; intros old row R H; cbn [rm_edges].
  - exists row. rewrite app_nil_r. auto.
  - cbv zeta. assert (L := H x w (or_introl eq_refl)). replace (old ++ (x, w) :: es) with ((old ++ [(x, w)]) ++ es) by (rewrite <- app_assoc; reflexivity).
    destruct (Nat.eqb_spec (nth x cm 0) c) as [E|Ne].
    + apply IH; [|intros; eapply H; right; eauto]. destruct R as [A B D]. constructor; auto.
      intros q Nq. rewrite toq_app, toq_one, <- D by auto. destruct (Nat.eqb_spec (nth x cm 0) q); [congruence|lia].
    + destruct (Nat.ltb_spec (nth x cm 0) cnt); [|lia]. apply IH; [|intros; eapply H; right; eauto]. apply rm_add_ok; auto.
Qed.

(** * the matching *)
Lemma rm_try_ok G draw em n : nth n G [] <> [] -> forall tries k, exists o k', rm_try tries G draw em n k = Some (o, k') /\
  (forall p, o = Some p -> (exists w, In (p, w) (nth n G [])) /\ nth p em 0 = p) .
Proof.
  intro Ne. induction tries as [|tries IH]; intro k; cbn [rm_try].
  - exists None, k. split; [auto|]. intros p H. discriminate H.
  - destruct (length (nth n G [])) eqn:El; [destruct (nth n G []); [congruence|discriminate El]|]. rewrite <- El. cbv zeta.
    set (e := nth (draw k mod length (nth n G [])) (nth n G []) (0, 0%N)).
    destruct (Nat.eqb_spec (nth (fst e) em 0) (fst e)) as [E|E]; [|apply IH].
    exists (Some (fst e)), (S k). split; [auto|]. intros p H. injection H as <-. split; [|auto]. exists (snd e). rewrite <- surjective_pairing. apply nth_In. apply Nat.mod_upper_bound. lia.
Qed.

Section MATCH.
Variable G : graph.
Hypothesis U : undirected G.
Hypothesis NE : forall v, v < length G -> nth v G [] <> [].
Let n := length G.
Definition forward (l : list (nat * option nat)) : Prop := forall a b, In (a, Some b) l -> a < b.
Definition owner (l : list (nat * option nat)) (c v : nat) : Prop := exists o, nth_error l c = Some (v, o) \/ (exists a, o = Some v /\ nth_error l c = Some (a, o)).

Record mi (i : nat) (s : rmst) : Prop := {
  mi_em : length (m_em s) = n;
  mi_cm : length (m_cm s) = n;
  mi_as : forall v, v < n -> (v < i \/ nth v (m_em s) 0 <> v) -> nth v (m_cm s) 0 < length (m_log s) /\ owner (m_log s) (nth v (m_cm s) 0) v;
  mi_own : forall c l o, nth_error (m_log s) c = Some (l, o) -> l < i /\ l < n /\ nth l (m_cm s) 0 = c /\
     match o with None => nth l (m_em s) 0 = l | Some p => l < p /\ p < n /\ nth l (m_em s) 0 = p /\ nth p (m_em s) 0 = l /\ nth p (m_cm s) 0 = c /\ (0 < length (filter (fun e => fst e =? p) (nth l G []))) end;
  mi_inc : forall c c' x y, c < c' -> nth_error (m_log s) c = Some x -> nth_error (m_log s) c' = Some y -> fst x < fst y }.

Lemma owner_app l m c v : owner l c v -> owner (l ++ m) c v.
Proof.
  assert (A : forall x, nth_error l c = Some x -> nth_error (l ++ m) c = Some x).
  { intros x H. rewrite nth_error_app1; auto. apply nth_error_Some. congruence. }
  intros [o [H|[a [E H]]]]; exists o; [left|right; exists a]; auto.
Qed.
Lemma nth_error_snoc {A} (l : list A) x c y : nth_error (l ++ [x]) c = Some y -> nth_error l c = Some y \/ (c = length l /\ y = x).
Proof.
  destruct (Nat.lt_ge_cases c (length l)) as [L|L]; [rewrite nth_error_app1 by auto; auto|]. rewrite nth_error_app2 by auto. intro H.
  destruct (c - length l) as [|m] eqn:E; cbn [nth_error] in H; [injection H as <-; right; split; [lia|auto]|]. destruct m; discriminate H.
Qed.

Lemma rm_vertex_ok draw i s : i < n -> mi i s -> exists s', rm_vertex G draw s i = Some s' /\ (exists add, m_log s' = m_log s ++ add) /\ (forward (m_log s') -> mi (S i) s').
Proof.
  intros Hi [E1 E2 As Ow Inc]. unfold rm_vertex. destruct (Nat.eqb_spec (nth i (m_em s) 0) i) as [Ei|Ei].
  - destruct (rm_try_ok G draw (m_em s) i (NE i Hi) 50 (m_k s)) as [o [k' [-> T]]].
    destruct o as [p|].
    + eexists. split; [reflexivity|]. cbn [m_log m_em m_cm]. split; [eexists; reflexivity|]. intro F.
      assert (ip : i < p) by (apply F; apply in_or_app; right; left; auto). destruct (T p eq_refl) as [[w Iw] Ep]. destruct U as [U1 _]. destruct (U1 _ _ _ Iw) as [Hp _].
      fold n in Hp. clear T.
      constructor; cbn [m_log m_em m_cm].
      * rewrite !upd_length. auto.
      * rewrite !upd_length. auto.
      * intros v Hv H. destruct (Nat.eq_dec v i) as [->|Ni].
        { rewrite nth_upd_eq by (rewrite upd_length; lia). rewrite app_length. cbn [length]. split; [lia|]. exists (Some p). left. rewrite nth_error_app2, Nat.sub_diag by lia. reflexivity. }
        rewrite nth_upd_neq by auto. destruct (Nat.eq_dec v p) as [->|Np].
        { rewrite nth_upd_eq by lia. rewrite app_length. cbn [length]. split; [lia|]. exists (Some p). right. exists i. split; [auto|]. rewrite nth_error_app2, Nat.sub_diag by lia. reflexivity. }
        rewrite !nth_upd_neq in * by auto. destruct (As v Hv) as [A B]; [destruct H; [left; lia|auto]|]. rewrite app_length. split; [lia|]. apply owner_app. auto.
      * intros c l o H. apply nth_error_snoc in H. destruct H as [H|[-> H]].
        { destruct (Ow c l o H) as (A & B & C & D). assert (l <> i) by lia. assert (l <> p) by lia. split; [lia|]. split; [lia|]. rewrite !nth_upd_neq by auto. split; [auto|].
          destruct o as [q|]; [|auto]. destruct D as (D1 & D2 & D3 & D4 & D5 & D6). assert (q <> i) by (intros ->; lia). assert (q <> p) by (intros ->; lia). rewrite !nth_upd_neq by auto. tauto. }
        injection H as -> ->. split; [lia|]. split; [lia|]. rewrite !nth_upd_eq by (rewrite ?upd_length; lia). split; [auto|]. split; [lia|]. split; [lia|]. rewrite !(nth_upd_neq _ i) by lia. rewrite !nth_upd_eq by lia. repeat (split; [auto|]).
        assert (I : In (p, w) (filter (fun e => fst e =? p) (nth i G []))) by (apply filter_In; split; [auto|apply Nat.eqb_refl]). destruct (filter _ _); [contradiction|cbn [length]; lia].
      * intros c c' x y Lc Hx Hy. apply nth_error_snoc in Hx. apply nth_error_snoc in Hy. destruct Hy as [Hy|[-> ->]].
        { destruct Hx as [Hx|[-> ->]]; [eauto|]. assert (c' < length (m_log s)) by (apply nth_error_Some; congruence). lia. }
        destruct Hx as [Hx|[-> ->]]; [|lia]. destruct x as [a b]. destruct (Ow _ _ _ Hx) as [A _]. exact A.
    + eexists. split; [reflexivity|]. cbn [m_log m_em m_cm]. split; [eexists; reflexivity|]. intros _. clear T.
      assert (Es : upd (m_em s) i i = m_em s) by (rewrite <- Ei at 2; apply upd_same). rewrite Es.
      constructor; cbn [m_log m_em m_cm].
      * auto.
      * rewrite upd_length. auto.
      * intros v Hv H. destruct (Nat.eq_dec v i) as [->|Ni].
        { rewrite nth_upd_eq by lia. rewrite app_length. cbn [length]. split; [lia|]. exists None. left. rewrite nth_error_app2, Nat.sub_diag by lia. reflexivity. }
        rewrite nth_upd_neq by auto. destruct (As v Hv) as [A B]; [destruct H; [left; lia|auto]|]. rewrite app_length. split; [lia|]. apply owner_app. auto.
      * intros c l o H. apply nth_error_snoc in H. destruct H as [H|[-> H]].
        { destruct (Ow c l o H) as (A & B & C & D). split; [lia|]. split; [lia|]. rewrite !nth_upd_neq by lia. split; [auto|].
          destruct o as [q|]; [|auto]. destruct D as (D1 & D2 & D3 & D4 & D5 & D6). assert (q <> i) by (intros ->; lia). rewrite !nth_upd_neq by auto. tauto. }
        injection H as -> ->. rewrite nth_upd_eq by lia. auto.
      * intros c c' x y Lc Hx Hy. apply nth_error_snoc in Hx. apply nth_error_snoc in Hy. destruct Hy as [Hy|[-> ->]].
        { destruct Hx as [Hx|[-> ->]]; [eauto|]. assert (c' < length (m_log s)) by (apply nth_error_Some; congruence). lia. }
        destruct Hx as [Hx|[-> ->]]; [|lia]. destruct x as [a b]. destruct (Ow _ _ _ Hx) as [A _]. exact A.
  - exists s. split; [auto|]. split; [exists []; rewrite app_nil_r; auto|]. intros _. constructor; auto.
    + intros v Hv H. apply As; auto. destruct (Nat.eq_dec v i) as [->|]; [auto|destruct H; [left; lia|auto]].
    + intros c l o H. destruct (Ow c l o H) as (A & B). split; [lia|auto].
Qed.

Lemma forward_app l m : forward (l ++ m) -> forward l.
Proof. intros F a b I. apply F. apply in_or_app. auto. Qed.

Lemma rm_loop_total draw : forall k i s, i + k = n -> exists s', rm_loop G draw s (seq i k) = Some s' /\ (exists add, m_log s' = m_log s ++ add).
Proof.
  induction k as [|k IH]; intros i s E; cbn [seq rm_loop].
  - exists s. split; [auto|]. exists []. rewrite app_nil_r. auto.
  - assert (V : exists s1, rm_vertex G draw s i = Some s1 /\ exists add, m_log s1 = m_log s ++ add).
    { unfold rm_vertex. destruct (nth i (m_em s) 0 =? i); [|exists s; split; [auto|exists []; rewrite app_nil_r; auto]].
      destruct (rm_try_ok G draw (m_em s) i (NE i ltac:(unfold n in *; lia)) 50 (m_k s)) as [[p|] [k' [-> _]]]; eexists; (split; [reflexivity|eexists; reflexivity]). }
    destruct V as (s1 & -> & a1 & L1). destruct (IH (S i) s1 ltac:(lia)) as (s2 & -> & a2 & L2). exists s2. split; [auto|]. exists (a1 ++ a2). rewrite L2, L1, app_assoc. auto.
Qed.
Lemma rm_loop_ok draw : forall k i s s', i + k = n -> mi i s -> rm_loop G draw s (seq i k) = Some s' -> forward (m_log s') -> mi n s'.
Proof.
  induction k as [|k IH]; intros i s s' E I H F; cbn [seq rm_loop] in H.
  - injection H as <-. replace n with i by lia. auto.
  - destruct (rm_vertex_ok draw i s ltac:(lia) I) as (s1 & E1 & _ & Q). rewrite E1 in H.
    destruct (rm_loop_total draw k (S i) s1 ltac:(lia)) as (s2 & E2 & a & L). rewrite H in E2. injection E2 as <-.
    apply (IH (S i) s1 s'); auto; [lia|]. apply Q. rewrite L in F. eapply forward_app; eauto.
Qed.

Lemma rm_match_ok draw : exists s, rm_match G draw = Some s /\ (forward (m_log s) -> mi n s).
Proof.
  unfold rm_match. fold n. set (s0 := mk_rm (seq 0 n) (repeat 0 n) 0 []). destruct (rm_loop_total draw n 0 s0 ltac:(lia)) as (s & E & _). exists s. split; [auto|]. intro F.
  apply (rm_loop_ok draw n 0 s0 s); auto. constructor; cbn [s0 m_em m_cm m_log].
  - apply seq_length.
  - apply repeat_length.
  - intros v Hv [H|H]; [lia|]. rewrite seq_nth in H by auto. simpl in H. congruence.
  - intros c l o H. destruct c; discriminate H.
  - intros c c' x y _ H. destruct c; discriminate H.
Qed.

(** * the rows *)
Definition mem_edges (em : list nat) (l : nat) : list (nat * N) := nth l G [] ++ (if nth l em 0 =? l then [] else nth (nth l em 0) G []).
Lemma rm_build_ok s : mi n s -> forall k i rows, i + k = n ->
  length rows <= length (m_log s) ->
  (forall c x, nth_error (m_log s) c = Some x -> (c < length rows <-> fst x < i)) ->
  (forall c x, c < length rows -> nth_error (m_log s) c = Some x -> rowi (m_cm s) c (length (m_log s)) (mem_edges (m_em s) (fst x)) (nth c rows [])) ->
  exists rows', rm_build G (m_em s) (m_cm s) (length (m_log s)) rows (seq i k) = Some rows' /\ length rows' = length (m_log s) /\
   forall c x, nth_error (m_log s) c = Some x -> rowi (m_cm s) c (length (m_log s)) (mem_edges (m_em s) (fst x)) (nth c rows' []).
Proof.
  intros [E1 E2 As Ow Inc]. induction k as [|k IH]; intros i rows E Lr Hc Hr; cbn [seq rm_build].
  - exists rows. split; [auto|]. assert (Lx : length rows = length (m_log s)).
    { destruct (Nat.lt_ge_cases (length rows) (length (m_log s))) as [L|L]; [|lia]. destruct (nth_error (m_log s) (length rows)) as [x|] eqn:X; [|apply nth_error_None in X; lia].
      destruct x as [l o]. destruct (Ow _ _ _ X) as (_ & A & _). destruct (Hc _ _ X) as [_ B]. cbn [fst] in B. lia. }
    split; [auto|]. intros c x X. apply Hr; auto. rewrite Lx. apply nth_error_Some. congruence.
  - assert (Hi : i < n) by lia. destruct (As i Hi (or_introl Hi)) as [Lt O]. set (c := nth i (m_cm s) 0) in *.
    assert (In_t : forall v x w, In (x, w) (nth v G []) -> nth x (m_cm s) 0 < length (m_log s)).
    { intros v x w I. destruct U as [U1 _]. destruct (U1 _ _ _ I) as [Hx _]. apply As; auto. }
    destruct O as [o [O|[a [-> O]]]].
    + (* the first vertex of its block *)
      assert (Rc : length rows = c).
      { destruct (Hc c _ O) as [A _]. cbn [fst] in A. destruct (Nat.lt_ge_cases c (length rows)) as [L|L]; [specialize (A L); lia|].
        destruct (Nat.eq_dec (length rows) c) as [|Nc]; [auto|]. destruct (nth_error (m_log s) (length rows)) as [y|] eqn:Y; [|apply nth_error_None in Y; lia].
        assert (B := Inc (length rows) c y (i, o) ltac:(lia) Y O). cbn [fst] in B. apply (Hc _ _ Y) in B. lia. }
      rewrite Rc, Nat.ltb_irrefl. destruct (Nat.ltb_spec c (length (m_log s))); [|lia].
      assert (R0 : rowi (m_cm s) c (length (m_log s)) [] []) by (constructor; [constructor|intros q w []|intros; reflexivity]).
      destruct (rm_edges_ok (m_cm s) c (length (m_log s)) (nth i G []) [] [] R0 (In_t i)) as (row & -> & R1). cbn [app] in R1.
      assert (X : exists row', (if nth i (m_em s) 0 =? i then Some row else rm_edges (m_cm s) (length (m_log s)) c row (nth (nth i (m_em s) 0) G [])) = Some row' /\ rowi (m_cm s) c (length (m_log s)) (mem_edges (m_em s) i) row').
      { unfold mem_edges. destruct (nth i (m_em s) 0 =? i); [exists row; rewrite app_nil_r; auto|]. apply rm_edges_ok; auto. apply In_t. }
      destruct X as (row' & -> & R2). apply IH.
      * lia.
      * rewrite app_length. cbn [length]. lia.
      * intros d x X. rewrite app_length. cbn [length]. split; intro D.
        { destruct (Nat.eq_dec d c) as [->|]; [rewrite X in O; injection O as ->; cbn [fst]; lia|]. assert (fst x < i); [apply (Hc d x X); lia|lia]. }
        destruct (Nat.eq_dec (fst x) i) as [Ex|]; [|assert (d < length rows); [apply (Hc d x X); lia|lia]].
        destruct x as [l o']. cbn [fst] in Ex. subst l. destruct (Ow _ _ _ X) as (_ & _ & C & _). fold c in C. lia.
      * intros d x Ld X. rewrite app_length in Ld. cbn [length] in Ld. destruct (Nat.eq_dec d c) as [->|Nd].
        { rewrite X in O. injection O as ->. cbn [fst]. rewrite app_nth2, Rc, Nat.sub_diag by lia. exact R2. }
        rewrite app_nth1 by lia. apply Hr; auto. lia.
    + destruct (Ow _ _ _ O) as (_ & _ & _ & D1 & D2 & D3 & D4 & D5 & _). assert (Lc : c < length rows) by (apply (Hc _ _ O); cbn [fst]; lia).
      destruct (Nat.ltb_spec c (length rows)); [|lia]. apply IH; auto; [lia|].
      intros d x X. rewrite (Hc d x X). split; [lia|]. intro B. destruct (Nat.eq_dec (fst x) i) as [Ex|]; [|lia].
      destruct x as [l o']. cbn [fst] in Ex. subst l. destruct (Ow _ _ _ X) as (_ & _ & C & _). fold c in C. subst d. rewrite X in O. injection O as Ea _. lia.
Qed.

Lemma bsum_two (f : nat -> N) (b : nat -> bool) m x y : x < m -> y < m -> x <> y -> (forall u, u < m -> (b u = true <-> u = x \/ u = y)) -> bsum m (fun u => if b u then f u else 0%N) = (f x + f y)%N.
Proof.
  intros Hx Hy Ne H. rewrite <- (bsum_single m (fun _ => f x) x Hx), <- (bsum_single m (fun _ => f y) y Hy), <- bsum_add. apply bsum_ext. intros u Hu. specialize (H u Hu).
  destruct (Nat.eqb_spec u x) as [E|E], (Nat.eqb_spec u y) as [E'|E'], (b u) eqn:B; destruct H as [H1 H2]; try lia.
  all: try (subst u; lia); try (specialize (H2 (or_introl E)); discriminate H2); try (specialize (H2 (or_intror E')); discriminate H2).
Qed.

Theorem random_matching_ok draw : exists s, rm_match G draw = Some s /\ (forward (m_log s) ->
  exists H, random_matching G draw = Some H /\ length H = length (m_log s) /\ mi n s /\ contraction_of n (wt G) (fun v => nth v (m_cm s) 0) (length H) (wt H) /\ undirected H /\ forall v, NoDup (map fst (nth v H []))).
Proof.
  destruct (rm_match_ok draw) as (s & E & M). exists s. split; [auto|]. intro F. specialize (M F). unfold random_matching. rewrite E. fold n.
  destruct (rm_build_ok s M n 0 []) as (rows & -> & L & R); [lia|cbn [length]; lia|intros c x _; cbn [length]; lia|intros c x Lc; cbn [length] in Lc; lia|].
  rewrite L, Nat.sub_diag. cbn [repeat]. rewrite app_nil_r. exists rows. split; [auto|]. split; [auto|]. split; [auto|].
  destruct M as [E1 E2 As Ow Inc]. destruct U as [U1 U2].
  assert (X : forall p, p < length rows -> exists x, nth_error (m_log s) p = Some x).
  { intros p Hp. destruct (nth_error (m_log s) p) as [x|] eqn:X; [eauto|]. apply nth_error_None in X. lia. }
  assert (C : contraction_of n (wt G) (fun v => nth v (m_cm s) 0) (length rows) (wt rows)).
  { intros p q Hp Hq Nq. destruct (X p Hp) as [[l o] Ex]. destruct (R p _ Ex) as [_ _ R3]. cbn [fst] in R3. unfold wt at 1. fold (to1 (nth p rows []) q). rewrite R3 by auto.
    destruct (Ow _ _ _ Ex) as (_ & Hl & Cl & D). unfold mem_edges.
    set (g := fun u => bsum n (fun v => if nth v (m_cm s) 0 =? q then wt G u v else 0%N)).
    assert (T : forall u, toq (m_cm s) q (nth u G []) = g u).
    { intro u. replace (nth u G []) with (flat_map (fun u => nth u G []) [u]) by (simpl; apply app_nil_r). rewrite (toq_sum G (m_cm s) q n) by (auto; intros a t w I; apply (U1 a t w I)). cbn [sumN]. unfold g. lia. }
    rewrite (bsum_ext n _ (fun u => if nth u (m_cm s) 0 =? p then g u else 0%N)).
    2: { intros u _. unfold g. destruct (nth u (m_cm s) 0 =? p); cbn [andb]; [reflexivity|]. apply bsum_zero. reflexivity. }
    assert (Oo : forall u, u < n -> nth u (m_cm s) 0 = p -> u = l \/ o = Some u).
    { intros u Hu Eu. destruct (As u Hu (or_introl Hu)) as [_ [o' Z]]. rewrite Eu, Ex in Z. destruct Z as [Z|[a [-> Z]]]; injection Z; intros; subst; auto. }
    destruct o as [r|].
    - destruct D as (D1 & D2 & D3 & D4 & D5 & _). rewrite D3. destruct (Nat.eqb_spec r l); [lia|]. rewrite toq_app, !T. symmetry. apply (bsum_two g); auto; try lia.
      intros u Hu. rewrite Nat.eqb_eq. split; [intro Q; destruct (Oo u Hu Q) as [|Q']; [auto|injection Q' as ->; auto]|intros [->| ->]; auto].
    - rewrite D, Nat.eqb_refl, app_nil_r, T. rewrite <- (bsum_single n (fun _ => g l) l Hl). apply bsum_ext. intros u Hu. destruct (Nat.eqb_spec u l) as [->|Nu]; [rewrite Cl, Nat.eqb_refl; auto|].
      destruct (Nat.eqb_spec (nth u (m_cm s) 0) p) as [Q|]; [|auto]. destruct (Oo u Hu Q) as [|Q']; [congruence|discriminate Q']. }
  split; [exact C|]. split; [split|].
  - intros u v w I. destruct (Nat.lt_ge_cases u (length rows)) as [A|A]; [|rewrite nth_overflow in I by auto; contradiction]. destruct (X u A) as [x Ex]. destruct (R u _ Ex) as [_ R2 _]. destruct (R2 _ _ I). split; [lia|auto].
  - intros p q Hp Hq. destruct (Nat.eq_dec p q) as [->|N]; [auto|]. rewrite !C by auto. rewrite bsum_swap. apply bsum_ext. intros u Hu. apply bsum_ext. intros v Hv. rewrite (U2 u v) by auto. rewrite andb_comm. reflexivity.
  - intro u. destruct (Nat.lt_ge_cases u (length rows)) as [A|A]; [|rewrite nth_overflow by auto; constructor]. destruct (X u A) as [x Ex]. apply (R u _ Ex).
Qed.
End MATCH.
