(* P_AllCut2.v - allCutsPrTests34 with limit l joins the same pairs as prTests34 with limit l + 1 for all cuts. *)
From Verif Require Import SpecRel M_UnionFind P_UnionFind SpecCut SpecPR M_AllCut.

Definition sim (s : p34) (a : a34) : Prop :=
  a_uf a = p_uf s /\ a_fin a = p_fin s /\ a_con a = p_con s /\ a_mark a = map (option_map snd) (p_mark s).
(** all marks belong to n, are positions in its edge list, and sit at the given targets *)
Definition marks_of (G : graph) (n : nat) (ts : list nat) (mk : list (option (nat * nat))) : Prop :=
  forall t m e, nth t mk None = Some (m, e) -> m = n /\ e < length (nth n G []) /\ In t ts.

Lemma nth_map_mark mk t : nth t (map (option_map (@snd nat nat)) mk) None = option_map snd (nth t mk None).
Proof. change None with (option_map (@snd nat nat) None) at 1. apply map_nth. Qed.
Lemma map_upd {A B} (f : A -> B) : forall l i x, map f (upd l i x) = upd (map f l) i (f x).
Proof. induction l as [|y l IH]; intros [|i] x; cbn; auto. f_equal. apply IH. Qed.

Lemma ac_mark_sim n : forall es pos mk, ac_mark n pos es (map (option_map snd) mk) = map (option_map snd) (mark_edges n pos es mk).
Proof.
  induction es as [|[t w] es IH]; intros pos mk; [reflexivity|]. cbn [ac_mark mark_edges]. rewrite <- IH. f_equal.
  destruct (n <? t); [|reflexivity]. rewrite map_upd. reflexivity.
Qed.
Lemma mark_edges_of G n ts : forall es pos mk, marks_of G n ts mk -> (forall t w, In (t, w) es -> In t ts) -> pos + length es <= length (nth n G []) ->
  marks_of G n ts (mark_edges n pos es mk).
Proof.
  induction es as [|[t w] es IH]; intros pos mk M I L; [exact M|]. cbn [mark_edges length] in *. apply IH; [|intros; eapply I; right; eauto|lia].
  destruct (n <? t); [|exact M]. intros t' m e. rewrite nth_upd. destruct ((t' =? t) && _) eqn:Q; [|apply M].
  intros X. injection X as <- <-. apply andb_prop in Q as [Q _]. apply Nat.eqb_eq in Q as ->. split; [auto|]. split; [lia|]. apply (I t w). left. reflexivity.
Qed.

Section Sim.
Variable G : graph.
Variable limit : N.

Lemma lt_le (x : N) : (limit <? x)%N = (limit + 1 <=? x)%N.
Proof. apply Bool.eq_iff_eq_true. rewrite N.ltb_lt, N.leb_le. lia. Qed.

Definition orel {A B} (R : A -> B -> Prop) (x : option A) (y : option B) : Prop :=
  match x, y with Some a, Some b => R a b | None, None => True | _, _ => False end.

Lemma tri_sim n ts tgt w1 s a sum e2 : sim s a -> marks_of G n ts (p_mark s) ->
  orel (fun x y => sim (fst x) (fst y) /\ snd x = snd y /\ p_mark (fst x) = p_mark s)
       (tri_edge true (limit + 1) G n tgt w1 (s, sum) e2) (ac_tri limit G n tgt w1 (a, sum) e2).
Proof.
  intros (E1 & E2 & E3 & E4) M. destruct e2 as [t2 w2]. unfold tri_edge, ac_tri. rewrite E4, nth_map_mark.
  destruct (nth t2 (p_mark s) None) as [[m e]|] eqn:Q; [|repeat split; auto]. cbn [option_map snd].
  destruct (M t2 m e Q) as (-> & Le & _). rewrite Nat.eqb_refl. cbn [negb]. destruct (Nat.leb_spec (length (nth n G [])) e); [lia|].
  cbn [negb andb orb]. rewrite <- !lt_le, E3, E1.
  match goal with |- context [if ?b then _ else _] => destruct b end; [|repeat split; auto].
  destruct (uf_union (p_uf s) n tgt) as [[u' ?]|]; [|exact Logic.I]. repeat split; cbn; auto.
Qed.

Lemma tris_sim n ts tgt w1 : forall es s a sum, sim s a -> marks_of G n ts (p_mark s) ->
  orel (fun x y => sim (fst x) (fst y) /\ snd x = snd y /\ p_mark (fst x) = p_mark s)
       (tri_edges true (limit + 1) G n tgt w1 (s, sum) es) (ac_tris limit G n tgt w1 (a, sum) es).
Proof.
  induction es as [|e es IH]; intros s a sum S M; [cbn; auto|]. cbn [tri_edges ac_tris].
  pose proof (tri_sim n ts tgt w1 s a sum e S M) as T.
  destruct (tri_edge _ _ _ _ _ _ _ _) as [[s1 sum1]|], (ac_tri _ _ _ _ _ _ _) as [[a1 sum1']|]; try contradiction; auto.
  cbn [orel fst snd] in T. destruct T as (S1 & T2 & M1). subst sum1'. rewrite <- M1. apply IH; auto. rewrite M1. exact M.
Qed.

Lemma marks_drop n t ts mk : marks_of G n (t :: ts) mk -> marks_of G n ts (upd mk t None).
Proof.
  intros M t' m e. rewrite nth_upd. destruct (Nat.eqb_spec t' t) as [->|N].
  - cbn [andb]. destruct (t <? length mk) eqn:L; [intro X; discriminate X|]. apply Nat.ltb_ge in L. rewrite nth_overflow by auto. intro X; discriminate X.
  - cbn [andb]. intros X. destruct (M _ _ _ X) as (A & B & [->|C]); [congruence|]. auto.
Qed.

Lemma edge_sim n e1 ts s a : sim s a -> marks_of G n (fst e1 :: ts) (p_mark s) -> (nth (fst e1) (p_fin s) false = false -> n < fst e1) ->
  orel (fun x y => sim x y /\ marks_of G n ts (p_mark x)) (pr34_edge true (limit + 1) G n s e1) (ac34_edge limit G n a e1).
Proof.
  intros (E1 & E2 & E3 & E4) M F. destruct e1 as [tgt w1]. cbn [fst] in *. unfold pr34_edge, ac34_edge. rewrite E2.
  destruct (nth tgt (p_fin s) false).
  - split; [|apply marks_drop; auto]. repeat split; cbn; auto. rewrite E4, map_upd. reflexivity.
  - specialize (F eq_refl). apply Nat.ltb_lt in F. rewrite F.
    set (s1 := mk_p34 _ _ _ _). set (a1 := mk_a34 _ _ _ _). assert (S1 : sim s1 a1) by (repeat split; cbn; auto).
    pose proof (tris_sim n (tgt :: ts) tgt w1 (nth tgt G []) s1 a1 w1 S1 M) as T.
    destruct (tri_edges _ _ _ _ _ _ _ _) as [[s2 sum]|], (ac_tris _ _ _ _ _ _ _) as [[a2 sum']|]; try contradiction; auto.
    cbn [orel fst snd] in T. destruct T as ((F1 & F2 & F3 & F4) & T2 & M2). subst sum'. rewrite lt_le.
    assert (M3 : marks_of G n ts (upd (p_mark s2) tgt None)) by (rewrite M2; apply marks_drop; exact M).
    destruct (limit + 1 <=? sum)%N.
    + rewrite F1. destruct (uf_union (p_uf s2) n tgt) as [[u' ?]|]; [|exact Logic.I]. split; [|exact M3]. repeat split; cbn; auto; [rewrite F3; reflexivity|rewrite F4, map_upd; reflexivity].
    + split; [|exact M3]. repeat split; cbn; auto. rewrite F4, map_upd. reflexivity.
Qed.

Lemma fin_edge n e1 s s' : pr34_edge true (limit + 1) G n s e1 = Some s' -> forall v, nth v (p_fin s) false = true -> nth v (p_fin s') false = true.
Proof.
  assert (TF : forall tgt w1 es st st', tri_edges true (limit + 1) G n tgt w1 st es = Some st' -> p_fin (fst st') = p_fin (fst st)).
  { intros tgt w1. induction es as [|[t2 w2] es IH]; cbn [tri_edges]; intros [s0 sm] st' E; [injection E as <-; reflexivity|].
    destruct (tri_edge _ _ _ _ _ _ _ _) as [[s1 sm1]|] eqn:Q; [|discriminate E]. rewrite (IH _ _ E). cbn [fst]. unfold tri_edge in Q.
    destruct (nth t2 (p_mark s0) None) as [[m e]|]; [|congruence]. destruct (negb (m =? n)); [congruence|].
    match goal with H : (if ?b then _ else _) = _ |- _ => destruct b end; [|congruence]. destruct (uf_union _ _ _) as [[? ?]|]; [|discriminate Q]. injection Q as <- <-. reflexivity. }
  destruct e1 as [tgt w1]. unfold pr34_edge. destruct (nth tgt (p_fin s) false) eqn:X; [intros E; injection E as <-; auto|].
  intros E v Hv. assert (K : nth v (upd (p_fin s) tgt true) false = true). { rewrite nth_upd. destruct ((v =? tgt) && _); auto. }
  destruct (n <? tgt); [|injection E as <-; exact K].
  destruct (tri_edges _ _ _ _ _ _ _ _) as [[s2 sum]|] eqn:T; [|discriminate E]. apply TF in T. cbn [fst p_fin] in T. rewrite <- T in K.
  destruct (limit + 1 <=? sum)%N; [destruct (uf_union _ _ _) as [[? ?]|]; [|discriminate E]|]; injection E as <-; exact K.
Qed.

Lemma edges_sim n : forall es s a, sim s a -> marks_of G n (map fst es) (p_mark s) -> (forall t w, In (t, w) es -> nth t (p_fin s) false = false -> n < t) ->
  (forall v, v <= n -> nth v (p_fin s) false = true) ->
  orel (fun x y => sim x y /\ marks_of G n [] (p_mark x)) (pr34_edges true (limit + 1) G n s es) (ac34_edges limit G n a es).
Proof.
  induction es as [|e es IH]; intros s a S M F D; [cbn; auto|]. cbn [pr34_edges ac34_edges].
  pose proof (edge_sim n e (map fst es) s a S M) as T. destruct e as [t w]. cbn [fst] in T. specialize (T (F t w (or_introl eq_refl))).
  destruct (pr34_edge _ _ _ _ _ _) as [s1|] eqn:E1, (ac34_edge _ _ _ _ _) as [a1|]; try contradiction; auto. destruct T as [S1 M1].
  pose proof (fin_edge n (t, w) s s1 E1) as FE.
  apply IH; auto. intros t' w' _ X. destruct (Nat.lt_ge_cases n t') as [|G0]; auto. exfalso. rewrite (FE t' (D t' G0)) in X. discriminate X.
Qed.

Lemma fin_edges n : forall es s s', pr34_edges true (limit + 1) G n s es = Some s' -> forall v, nth v (p_fin s) false = true -> nth v (p_fin s') false = true.
Proof.
  induction es as [|e es IH]; cbn [pr34_edges]; intros s s' E v H; [congruence|].
  destruct (pr34_edge _ _ _ _ _ _) as [s1|] eqn:E1; [|discriminate E]. apply (IH s1 s' E). apply (fin_edge n e s s1 E1 v H).
Qed.

Lemma len_fin_edge n e1 s s' : pr34_edge true (limit + 1) G n s e1 = Some s' -> length (p_fin s') = length (p_fin s).
Proof.
  assert (TF : forall tgt w1 es st st', tri_edges true (limit + 1) G n tgt w1 st es = Some st' -> p_fin (fst st') = p_fin (fst st)).
  { intros tgt w1. induction es as [|[t2 w2] es IH]; cbn [tri_edges]; intros [s0 sm] st' E; [injection E as <-; reflexivity|].
    destruct (tri_edge _ _ _ _ _ _ _ _) as [[s1 sm1]|] eqn:Q; [|discriminate E]. rewrite (IH _ _ E). cbn [fst]. unfold tri_edge in Q.
    destruct (nth t2 (p_mark s0) None) as [[m e]|]; [|congruence]. destruct (negb (m =? n)); [congruence|].
    match goal with H : (if ?b then _ else _) = _ |- _ => destruct b end; [|congruence]. destruct (uf_union _ _ _) as [[? ?]|]; [|discriminate Q]. injection Q as <- <-. reflexivity. }
  destruct e1 as [tgt w1]. unfold pr34_edge. destruct (nth tgt (p_fin s) false) eqn:X; [intros E; injection E as <-; auto|].
  intros E. assert (K : length (upd (p_fin s) tgt true) = length (p_fin s)) by apply upd_length.
  destruct (n <? tgt); [|injection E as <-; exact K].
  destruct (tri_edges _ _ _ _ _ _ _ _) as [[s2 sum]|] eqn:T; [|discriminate E]. apply TF in T. cbn [fst p_fin] in T. rewrite <- T in K.
  destruct (limit + 1 <=? sum)%N; [destruct (uf_union _ _ _) as [[? ?]|]; [|discriminate E]|]; injection E as <-; exact K.
Qed.
Lemma len_fin_edges n : forall es s s', pr34_edges true (limit + 1) G n s es = Some s' -> length (p_fin s') = length (p_fin s).
Proof.
  induction es as [|e es IH]; cbn [pr34_edges]; intros s s' E; [congruence|].
  destruct (pr34_edge _ _ _ _ _ _) as [s1|] eqn:E1; [|discriminate E]. rewrite (IH s1 s' E). apply (len_fin_edge n e s s1 E1).
Qed.

Lemma nodes_sim : forall k n s a, sim s a -> marks_of G n [] (p_mark s) -> length (p_fin s) = length G -> n + k = length G ->
  (forall v, v < n -> nth v (p_fin s) false = true) ->
  orel sim (pr34_nodes true (limit + 1) G s (seq n k)) (ac34_nodes limit G a (seq n k)).
Proof.
  induction k as [|k IH]; intros n s a S M LF LN D; [cbn; auto|]. cbn [seq pr34_nodes ac34_nodes].
  assert (NM : forall t, nth t (p_mark s) None = None). { intros t. destruct (nth t (p_mark s) None) as [[m e]|] eqn:Q; auto. destruct (M _ _ _ Q) as (_ & _ & []). }
  unfold pr34_node, ac34_node. destruct S as (E1 & E2 & E3 & E4). rewrite E2. destruct (nth n (p_fin s) false) eqn:Fn.
  - apply IH; auto; [repeat split; auto| |lia|].
    + intros t m e Q. rewrite NM in Q. discriminate Q.
    + intros v Hv. destruct (Nat.eq_dec v n) as [->|]; auto. apply D. lia.
  - set (s1 := mk_p34 _ _ _ _). set (a1 := mk_a34 _ _ _ _).
    assert (S1 : sim s1 a1). { repeat split; cbn; auto. rewrite E4. apply ac_mark_sim. }
    assert (D1 : forall v, v <= n -> nth v (p_fin s1) false = true).
    { intros v Hv. cbn. rewrite nth_upd. destruct (Nat.eqb_spec v n) as [->|]; [|apply D; lia]. destruct (Nat.ltb_spec n (length (p_fin s))); [reflexivity|lia]. }
    pose proof (edges_sim n (nth n G []) s1 a1 S1) as T.
    assert (T' : orel (fun x y => sim x y /\ marks_of G n [] (p_mark x)) (pr34_edges true (limit + 1) G n s1 (nth n G [])) (ac34_edges limit G n a1 (nth n G []))).
    { apply T; auto.
      - cbn. apply mark_edges_of; [intros t m e Q; rewrite NM in Q; discriminate Q| |lia]. intros t w Hi. apply in_map_iff. exists (t, w). auto.
      - intros t w _ X. destruct (Nat.lt_ge_cases n t) as [|G0]; auto. rewrite (D1 t G0) in X. discriminate X. }
    destruct (pr34_edges _ _ _ _ _ _) as [s2|] eqn:Q2, (ac34_edges _ _ _ _ _) as [a2|]; try contradiction; auto. destruct T' as [S2 M2].
    apply IH; auto; [| |lia|].
    + intros t m e Q. destruct (M2 _ _ _ Q) as (_ & _ & []).
    + rewrite (len_fin_edges n _ _ _ Q2). cbn. rewrite upd_length. exact LF.
    + intros v Hv. apply (fin_edges n _ _ _ Q2). apply D1. lia.
Qed.

Theorem ac34_is_pr34 : ac_tests34 G limit = pr_tests34 true G (limit + 1).
Proof.
  unfold ac_tests34, pr_tests34. set (n := length G).
  pose proof (nodes_sim n 0 (mk_p34 (uf_init n) (repeat None n) (repeat false n) (repeat false n)) (mk_a34 (uf_init n) (repeat None n) (repeat false n) (repeat false n))) as H.
  assert (K : orel sim (pr34_nodes true (limit + 1) G (mk_p34 (uf_init n) (repeat None n) (repeat false n) (repeat false n)) (seq 0 n))
     (ac34_nodes limit G (mk_a34 (uf_init n) (repeat None n) (repeat false n) (repeat false n)) (seq 0 n))).
  { apply H; auto.
    - repeat split; cbn; auto. clear. induction n; cbn; f_equal; auto.
    - intros t m e. cbn. intros Q. exfalso. revert Q. clear. revert t. induction n as [|n IH]; intros [|t]; cbn; try discriminate. apply IH.
    - cbn. apply repeat_length.
    - intros v Hv. lia. }
  destruct (pr34_nodes _ _ _ _ _) as [s|], (ac34_nodes _ _ _ _) as [a|]; try contradiction; auto. destruct K as (-> & _). reflexivity.
Qed.
End Sim.
