(* Prop_MakeWeighted.v - C90: make_graph_weighted gives both directions of every edge the same weight, in the wanted range. *)
From Verif Require Import M_MakeWeighted P_Cut.

(** one edge per direction between adjacent vertices, no loops, no isolated vertices *)
Definition plain (G : graph) : Prop :=
  (forall u v w, In (v, w) (nth u G []) -> v < length G /\ v <> u /\ exists w', In (u, w') (nth v G [])) /\
  (forall u, u < length G -> NoDup (map fst (nth u G []))) /\ forall u, u < length G -> nth u G [] <> [].
(** the edge between u and v is the one picked at u or at v *)
Definition picked (G : graph) (pick : nat -> nat) (u v : nat) : Prop :=
  (exists w, nth_error (nth u G []) (pick u) = Some (v, w)) \/ (exists w, nth_error (nth v G []) (pick v) = Some (u, w)).
(** a weight from the range, multiplied if the edge was picked *)
Definition weight_ok (G : graph) (pick : nat -> nat) (lo hi multi : N) (u v : nat) (w : N) : Prop :=
  exists d, (lo <= d <= hi)%N /\ (picked G pick u v /\ w = (d * multi)%N \/ ~ picked G pick u v /\ w = d).

Lemma key_eqb_eq p q : key_eqb p q = true <-> p = q.
Proof.
  destruct p as [a b], q as [c d]. unfold key_eqb. cbn [fst snd]. rewrite andb_true_iff, !Nat.eqb_eq. split; [intros [-> ->]; auto|intro E; injection E; auto].
Qed.
Lemma mw_key_lt u v : u < v -> mw_key u v = (u, v) /\ mw_key v u = (u, v).
Proof. intro L. unfold mw_key. destruct (Nat.ltb_spec v u); [lia|]. destruct (Nat.ltb_spec u v); [auto|lia]. Qed.
Lemma put_same mp p w : mw_put mp p w p = Some w.
Proof. unfold mw_put. rewrite (proj2 (key_eqb_eq p p) eq_refl). auto. Qed.
Lemma put_other mp p q w : q <> p -> mw_put mp p w q = mp q.
Proof. intro Ne. unfold mw_put. destruct (key_eqb q p) eqn:E; [apply key_eqb_eq in E; contradiction|auto]. Qed.

Section ROWS.
Variables (G : graph) (heavy : list (nat * nat)) (multi : N) (draw : nat -> N) (P : nat -> nat -> N -> Prop).
Hypothesis ok : forall u v k, u < v -> P u v (if existsb (key_eqb (u, v)) heavy then (draw k * multi)%N else draw k).

(** edges of n: what is above n is drawn and noted, what is below n is looked up *)
Lemma mw_row_ok n : forall es k mp k' mp' r, mw_row heavy multi draw n k mp es = (k', mp', r) -> NoDup (map fst es) ->
  (forall v w, In (v, w) es -> v <> n) -> (forall v w, In (v, w) es -> v < n -> mp (v, n) <> None) ->
  map fst r = map fst es /\
  (forall a b, a <> n -> mp' (a, b) = mp (a, b)) /\
  (forall b, ~ In b (map fst es) -> mp' (n, b) = mp (n, b)) /\
  (forall v w, In (v, w) r -> n < v -> mp' (n, v) = Some w /\ P n v w) /\
  (forall v w, In (v, w) r -> v < n -> mp (v, n) = Some w).
Proof.
  induction es as [|[t x] es IH]; intros k mp k' mp' r E ND NL LK; cbn [mw_row] in E.
  - injection E as <- <- <-. repeat (split; [solve [auto]|]). split; [intros v w []|intros v w []].
  - cbn [map fst] in ND. apply NoDup_cons_iff in ND. destruct ND as [Nt ND]. assert (Tn : t <> n) by (eapply NL; left; reflexivity).
    destruct (Nat.ltb_spec n t) as [L|L].
    + rewrite (proj1 (mw_key_lt n t L)) in E. set (w := if existsb (key_eqb (n, t)) heavy then (draw k * multi)%N else draw k) in E.
      destruct (mw_row heavy multi draw n (S k) (mw_put mp (n, t) w) es) as [[k1 mp1] r1] eqn:E1. injection E as <- <- <-.
      destruct (IH _ _ _ _ _ E1 ND) as (A & B & C & D & F).
      { intros v y I. eapply NL. right. exact I. }
      { intros v y I Lv. rewrite put_other by (intro Q; injection Q; lia). eapply LK; [right; exact I|auto]. }
      split; [cbn [map fst]; rewrite A; auto|]. split.
      { intros a b Na. rewrite B by auto. apply put_other. intro Q. injection Q as Q1 Q2. contradiction. }
      split.
      { intros b Nb. cbn [map fst] in Nb. rewrite C by (intro Q; apply Nb; right; auto). apply put_other. intro Q. injection Q as Q1. apply Nb. left. auto. }
      split.
      { intros v y [Q|I] Lv; [|apply D; auto]. injection Q as <- <-. split; [rewrite C by auto; apply put_same|apply ok; auto]. }
      { intros v y [Q|I] Lv; [injection Q as Q _; lia|]. rewrite <- (F v y I Lv). symmetry. apply put_other. intro Q. injection Q. lia. }
    + assert (Lt : t < n) by lia. rewrite (proj2 (mw_key_lt t n Lt)) in E.
      destruct (mw_row heavy multi draw n k (mw_put mp (t, n) (mw_get mp (t, n))) es) as [[k1 mp1] r1] eqn:E1. injection E as <- <- <-.
      assert (Sm : forall q, mw_put mp (t, n) (mw_get mp (t, n)) q = mp q).
      { intro q. unfold mw_put. destruct (key_eqb q (t, n)) eqn:Q; [|auto]. apply key_eqb_eq in Q. subst q. unfold mw_get.
        destruct (mp (t, n)) eqn:M; [auto|]. exfalso. eapply LK; [left; reflexivity|auto|exact M]. }
      destruct (IH _ _ _ _ _ E1 ND) as (A & B & C & D & F).
      { intros v y I. eapply NL. right. exact I. }
      { intros v y I Lv. rewrite Sm. eapply LK; [right; exact I|auto]. }
      split; [cbn [map fst]; rewrite A; auto|]. split.
      { intros a b Na. rewrite B by auto. apply Sm. }
      split.
      { intros b Nb. cbn [map fst] in Nb. rewrite C by (intro Q; apply Nb; right; auto). apply Sm. }
      split.
      { intros v y [Q|I] Lv; [injection Q as Q _; lia|apply D; auto]. }
      { intros v y [Q|I] Lv; [|rewrite <- (F v y I Lv); symmetry; apply Sm]. injection Q as <- <-. unfold mw_get.
        destruct (mp (t, n)) eqn:M; [auto|]. exfalso. eapply LK; [left; reflexivity|auto|exact M]. }
Qed.

(** the rows from n on, given what the vertices before n have noted *)
Lemma mw_rows_ok : plain G -> forall rows n k mp, n + length rows = length G -> (forall i, nth i rows [] = nth (n + i) G []) ->
  (forall u v w, u < n -> u < v -> In (v, w) (nth u G []) -> exists x, mp (u, v) = Some x /\ P u v x) ->
  exists f, let R := mw_rows heavy multi draw n k mp rows in length R = length rows /\
    (forall i, i < length rows -> map fst (nth i R []) = map fst (nth i rows [])) /\
    (forall u v, u < n -> f u v = mp (u, v)) /\
    (forall i v w, i < length rows -> In (v, w) (nth i R []) -> if n + i <? v then f (n + i) v = Some w /\ P (n + i) v w else f v (n + i) = Some w).
Proof.
  intros (Pl & Nd & _). induction rows as [|es rows IH]; intros n k mp Ln Hr Hm; cbn [mw_rows].
  - exists (fun u v => mp (u, v)). cbv zeta. split; [auto|]. split; [intros i Hi; cbn in Hi; lia|]. split; [auto|]. intros i v w Hi. cbn in Hi. lia.
  - cbn [length] in Ln. assert (Es : es = nth n G []) by (specialize (Hr 0); cbn [nth] in Hr; rewrite Nat.add_0_r in Hr; auto).
    destruct (mw_row heavy multi draw n k mp es) as [[k1 mp1] r] eqn:E.
    destruct (mw_row_ok n es k mp k1 mp1 r E) as (A & B & C & D & F).
    { rewrite Es. apply Nd. lia. }
    { intros v w I. rewrite Es in I. apply (Pl n v w I). }
    { intros v w I L. rewrite Es in I. destruct (Pl n v w I) as (_ & _ & w' & I'). destruct (Hm v n w' L L I') as (x & -> & _). discriminate. }
    destruct (IH (S n) k1 mp1) as (f & L1 & L2 & L3 & L4); [lia|intro i; specialize (Hr (S i)); cbn [nth] in Hr; rewrite Hr; f_equal; lia| |].
    { intros u v w Lu Luv I. destruct (Nat.eq_dec u n) as [->|Ne].
      - assert (I' : In v (map fst r)) by (rewrite A, Es; apply in_map_iff; exists (v, w); auto).
        apply in_map_iff in I'. destruct I' as [[v' x] [Q I']]. cbn [fst] in Q. subst v'. destruct (D v x I' Luv). eauto.
      - destruct (Hm u v w) as (x & M & Px); [lia|auto|auto|]. exists x. rewrite B by auto. auto. }
    exists f. cbv zeta. cbn [length]. split; [rewrite L1; auto|]. split; [intros [|i] Hi; cbn [nth]; [auto|apply L2; lia]|]. split.
    { intros u v Lu. rewrite L3 by lia. apply B. lia. }
    intros [|i] v w Hi I; cbn [nth] in I.
    + rewrite Nat.add_0_r. destruct (Nat.ltb_spec n v) as [L|L].
      * destruct (D v w I L) as [M Pw]. split; [rewrite L3 by lia; auto|auto].
      * assert (Ne : v <> n).
        { assert (J : In v (map fst es)) by (rewrite <- A; apply in_map_iff; exists (v, w); auto). rewrite Es in J. apply in_map_iff in J.
          destruct J as [[v' y] [Q J]]. cbn [fst] in Q. subst v'. apply (Pl n v y J). }
        rewrite L3 by lia. rewrite B by auto. apply F; [auto|lia].
    + replace (n + S i) with (S n + i) by lia. apply L4; [lia|auto].
Qed.
End ROWS.

Lemma mw_heavy_ok G pick ns : (forall n, In n ns -> pick n < length (nth n G [])) -> exists h, mw_heavy G pick ns = Some h /\
  forall p, In p h <-> exists n t w, In n ns /\ nth_error (nth n G []) (pick n) = Some (t, w) /\ p = mw_key n t.
Proof.
  induction ns as [|n ns IH]; intro Hp; cbn [mw_heavy].
  - exists []. split; [auto|]. intro p. split; [intros []|intros (n & t & w & [] & _)].
  - destruct (IH (fun m I => Hp m (or_intror I))) as (h & -> & Hh).
    destruct (nth_error (nth n G []) (pick n)) as [[t w]|] eqn:E; [|apply nth_error_None in E; specialize (Hp n (or_introl eq_refl)); lia].
    exists (mw_key n t :: h). split; [auto|]. intro p. split.
    + intros [<-|I]; [exists n, t, w; split; [left; auto|auto]|]. apply Hh in I. destruct I as (m & t' & w' & I & Q). exists m, t', w'. split; [right; auto|auto].
    + intros (m & t' & w' & [<-|I] & Q & ->); [rewrite E in Q; injection Q as <- <-; left; auto|]. right. apply Hh. eauto 6.
Qed.

Lemma wt_row (H : graph) u v w : NoDup (map fst (nth u H [])) -> In (v, w) (nth u H []) -> wt H u v = w.
Proof.
  unfold wt. induction (nth u H []) as [|[t x] l IH]; [intros _ []|]. cbn [map fst filter]. intros ND I. apply NoDup_cons_iff in ND. destruct ND as [Nt ND].
  assert (Z : ~ In v (map fst l) -> sumN snd (filter (fun e => fst e =? v) l) = 0%N).
  { intro Nv. apply sumN_zero. intros [a b] J. apply filter_In in J. destruct J as [J Q]. apply Nat.eqb_eq in Q. cbn [fst] in Q. subst a. exfalso. apply Nv. apply in_map_iff. exists (v, b). auto. }
  destruct I as [Q|I].
  - injection Q as -> ->. rewrite Nat.eqb_refl. cbn [sumN snd]. rewrite Z by auto. lia.
  - destruct (Nat.eqb_spec t v) as [->|Ne]; [exfalso; apply Nt; apply in_map_iff; exists (v, w); auto|auto].
Qed.
Lemma wt_no (H : graph) u v : ~ In v (map fst (nth u H [])) -> wt H u v = 0%N.
Proof.
  intro Nv. unfold wt. apply sumN_zero. intros [a b] J. apply filter_In in J. destruct J as [J Q]. apply Nat.eqb_eq in Q. cbn [fst] in Q. subst a.
  exfalso. apply Nv. apply in_map_iff. exists (v, b). auto.
Qed.

(** C90: the graph written has the same edges; every edge has one weight in both directions, drawn from the range and multiplied
    exactly if the edge was picked at one of its ends; every vertex has a picked edge *)
Theorem C90_make_weighted G pick lo hi multi draw : plain G -> (forall n, n < length G -> pick n < length (nth n G [])) -> (forall k, (lo <= draw k <= hi)%N) ->
  exists H, make_weighted G pick multi draw = Some H /\ length H = length G /\ (forall u, map fst (nth u H []) = map fst (nth u G [])) /\ undirected H /\
    (forall u v w, In (v, w) (nth u H []) -> In (u, w) (nth v H []) /\ weight_ok G pick lo hi multi u v w) /\
    forall u, u < length G -> exists v w, In (v, w) (nth u H []) /\ picked G pick u v.
Proof.
  intros Pl Hp Hd. destruct (mw_heavy_ok G pick (seq 0 (length G))) as (h & Eh & Hh).
  { intros n I. apply Hp. apply in_seq in I. lia. }
  unfold make_weighted. rewrite Eh. cbn [option_map].
  assert (Pk : forall u v, u < v -> v < length G -> (existsb (key_eqb (u, v)) h = true <-> picked G pick u v)).
  { intros u v L Lv. rewrite existsb_exists. split.
    - intros (q & I & Q). apply key_eqb_eq in Q. subst q. apply Hh in I. destruct I as (n & t & w & _ & Q & K). unfold mw_key in K.
      destruct (t <? n); injection K as -> ->; [right|left]; eauto.
    - intros [[w Q]|[w Q]]; exists (u, v); (split; [|apply key_eqb_eq; auto]); apply Hh; [exists u, v, w|exists v, u, w]; (split; [apply in_seq; lia|]); (split; [auto|]); symmetry; apply mw_key_lt; auto. }
  destruct (mw_rows_ok G h multi draw (fun u v w => v < length G -> weight_ok G pick lo hi multi u v w)) with (rows := G) (n := 0) (k := 0) (mp := fun _ : nat * nat => @None N)
    as (f & L1 & L2 & _ & L4); [|exact Pl|auto|auto|intros u v w Lu; lia|].
  { intros u v k L Lv. exists (draw k). split; [auto|]. destruct (existsb (key_eqb (u, v)) h) eqn:Q.
    - left. split; [apply Pk; auto|auto].
    - right. split; [|auto]. intro X. apply Pk in X; [congruence|auto|auto]. }
  set (H := mw_rows h multi draw 0 0 (fun _ => None) G) in *. cbv zeta in L1, L2, L4. cbn [Nat.add] in L4.
  destruct Pl as (Pl & Nd & Ni).
  assert (M : forall u, map fst (nth u H []) = map fst (nth u G [])).
  { intro u. destruct (Nat.lt_ge_cases u (length G)) as [L|L]; [auto|]. rewrite !nth_overflow by lia. auto. }
  assert (InH : forall u v w, In (v, w) (nth u H []) -> u < length G /\ v < length G /\ v <> u /\ In u (map fst (nth v G []))).
  { intros u v w I. assert (Lu : u < length G) by (destruct (Nat.lt_ge_cases u (length G)); [auto|rewrite nth_overflow in I by lia; destruct I]).
    assert (J : In v (map fst (nth u G []))) by (rewrite <- M; apply in_map_iff; exists (v, w); auto). apply in_map_iff in J. destruct J as [[v' x] [Q J]]. cbn [fst] in Q. subst v'.
    destruct (Pl u v x J) as (A & B & w' & C). split; [auto|]. split; [auto|]. split; [auto|]. apply in_map_iff. exists (u, w'). auto. }
  assert (Pc : forall u v, picked G pick u v -> picked G pick v u) by (intros u v [X|X]; [right|left]; auto).
  assert (Sy : forall u v w, In (v, w) (nth u H []) -> In (u, w) (nth v H []) /\ weight_ok G pick lo hi multi u v w).
  { intros u v w I. destruct (InH u v w I) as (Lu & Lv & Ne & J). rewrite <- M in J. apply in_map_iff in J. destruct J as [[u' w'] [Q J]]. cbn [fst] in Q. subst u'.
    pose proof (L4 u v w Lu I) as X. pose proof (L4 v u w' Lv J) as Y.
    destruct (Nat.ltb_spec u v) as [L|L]; destruct (Nat.ltb_spec v u) as [L'|L']; [lia| | |lia].
    - destruct X as [X1 X2]. rewrite X1 in Y. injection Y as <-. split; [auto|apply X2; auto].
    - destruct Y as [Y1 Y2]. rewrite Y1 in X. injection X as ->. split; [auto|]. destruct (Y2 Lu) as (d & D1 & [[D2 D3]|[D2 D3]]); exists d; (split; [auto|]); [left|right]; (split; [|auto]); auto. }
  exists H. split; [auto|]. split; [auto|]. split; [auto|]. split; [|split; [auto|]].
  - split; [intros u v w I; rewrite L1; destruct (InH u v w I) as (_ & A & B & _); auto|].
    rewrite L1. intros u v Hu Hv. destruct (in_dec Nat.eq_dec v (map fst (nth u H []))) as [J|J].
    + apply in_map_iff in J. destruct J as [[v' w] [Q J]]. cbn [fst] in Q. subst v'.
      rewrite (wt_row H u v w); [|rewrite M; apply Nd; auto|auto]. symmetry. apply wt_row; [rewrite M; apply Nd; auto|apply Sy; auto].
    + rewrite (wt_no H u v J). symmetry. apply wt_no. intro J'. apply J. apply in_map_iff in J'. destruct J' as [[u' w] [Q J']]. cbn [fst] in Q. subst u'.
      destruct (Sy v u w J') as [K _]. apply in_map_iff. exists (v, w). auto.
  - intros u Hu. destruct (nth_error (nth u G []) (pick u)) as [[v x]|] eqn:E; [|apply nth_error_None in E; specialize (Hp u Hu); lia].
    assert (J : In v (map fst (nth u H []))) by (rewrite M; apply in_map_iff; exists (v, x); split; [auto|apply nth_error_In in E; auto]).
    apply in_map_iff in J. destruct J as [[v' w] [Q J]]. cbn [fst] in Q. subst v'. exists v, w. split; [auto|]. left. eauto.
Qed.
Print Assumptions C90_make_weighted.

(** a triangle with a tail; weights 5, 6, 7, 8, picked edges times 10 *)
Definition mwg : graph := gr [[(1,1);(2,1)];[(0,1);(2,1)];[(0,1);(1,1);(3,1)];[(2,1)]].
Example C90_case : plain mwg /\ (forall n, n < length mwg -> 0 < length (nth n mwg [])) /\ (forall k, (5 <= 5 + N.of_nat (k mod 4) <= 8)%N) /\
  make_weighted mwg (fun _ => 0) 10 (fun k => 5 + N.of_nat (k mod 4))%N = Some (gr [[(1,50);(2,60)];[(0,50);(2,7)];[(0,60);(1,7);(3,80)];[(2,80)]]).
Proof.
  split; [split; [|split]|split; [|split]].
  - intros u v w I. destruct u as [|[|[|[|u]]]]; cbn in I; repeat (destruct I as [I|I]; [injection I as <- _; split; [cbn; lia|split; [lia|exists 1%N; cbn; tauto]]|]); try contradiction. destruct u; contradiction.
  - intros u Hu. destruct u as [|[|[|[|u]]]]; [| | | |cbn in Hu; lia]; cbn; repeat (constructor; [cbn; intuition lia|]); constructor.
  - intros u Hu. destruct u as [|[|[|[|u]]]]; [| | | |cbn in Hu; lia]; discriminate.
  - intros n Hn. destruct n as [|[|[|[|n]]]]; [| | | |cbn in Hn; lia]; cbn; lia.
  - intro k. pose proof (Nat.mod_upper_bound k 4 ltac:(lia)). lia.
  - vm_compute. reflexivity.
Qed.

(** with parallel edges the two directions differ: the second edge overwrites the weight noted for the pair *)
Theorem C90_parallel_refuted : undirected (gr [[(1,1);(1,1)];[(0,1);(0,1)]]) /\
  exists H, make_weighted (gr [[(1,1);(1,1)];[(0,1);(0,1)]]) (fun _ => 0) 1 (fun k => N.of_nat (S k)) = Some H /\ wt H 0 1 = 3%N /\ wt H 1 0 = 4%N.
Proof. split; [apply undirectedb_ok; vm_compute; reflexivity|]. eexists. split; [reflexivity|]. split; reflexivity. Qed.
Print Assumptions C90_parallel_refuted.

(** an isolated vertex asks nextInt for a number from an empty range, whatever is drawn *)
Theorem C90_isolated_refuted G pick multi draw v : v < length G -> nth v G [] = [] -> make_weighted G pick multi draw = None.
Proof.
  intros Hv E. unfold make_weighted. assert (Q : forall ns, In v ns -> mw_heavy G pick ns = None).
  { induction ns as [|n ns IH]; [intros []|]. intro I. cbn [mw_heavy]. destruct I as [->|I].
    - rewrite E. destruct (pick v); auto.
    - rewrite (IH I). destruct (nth_error _ _) as [[t w]|]; auto. }
  rewrite Q; [auto|]. apply in_seq. lia.
Qed.
Print Assumptions C90_isolated_refuted.
Example C90_isolated_case : make_weighted (gr [[(1,1)];[(0,1)];[]]) (fun _ => 0) 1 (fun _ => 1%N) = None.
Proof. apply (C90_isolated_refuted _ _ _ _ 2); [cbn; lia|reflexivity]. Qed.
