(* P_LocalSearch.v - proofs about the gain part of the local search. *)
From Verif Require Import SpecMulti SpecFlow P_Cut P_Mutable P_MutableIO P_Multi P_Kernel M_LocalSearch.
From Coq Require Import Permutation.

(** no two edges between the same vertices *)
Definition no_parallel (R : list (list half)) : Prop := forall v, NoDup (map (fun h : half => fst (fst h)) (nth v R [])).

Lemma upd_mv sol x b v : x < length sol -> block_of (upd sol x b) v = mv (block_of sol) x b v.
Proof.
  intro H. unfold block_of, mv. destruct (Nat.eqb_spec v x) as [->|]; [apply nth_upd_eq; auto|apply nth_upd_neq; auto].
Qed.

Lemma block_weights_ok sol : forall row bw, (forall t w r, In (t, w, r) row -> block_of sol t < length bw) ->
  exists bw', block_weights row sol bw = Some bw' /\ length bw' = length bw /\
    forall b, nth b bw' 0%N = (nth b bw 0 + sumN (fun h : half => if Nat.eqb (block_of sol (fst (fst h))) b then snd (fst h) else 0%N) row)%N.
Proof.
  induction row as [|[[t w] r] row IH]; intros bw H; cbn [block_weights].
  - exists bw. split; [auto|]. split; [auto|]. intro b. cbn. lia.
  - pose proof (H t w r (or_introl eq_refl)) as Ht. destruct (Nat.ltb_spec (block_of sol t) (length bw)); [|lia].
    destruct (IH (upd bw (block_of sol t) (nth (block_of sol t) bw 0 + w)%N)) as (bw' & E & L & N').
    { intros t' w' r' I. rewrite upd_length. apply (H t' w' r'). right. auto. }
    exists bw'. split; [auto|]. rewrite upd_length in L. split; [auto|]. intro b. rewrite N'. cbn [sumN fst snd].
    destruct (Nat.eqb_spec (block_of sol t) b) as [Q|Q]; [rewrite Q; rewrite nth_upd_eq by lia; lia|]. rewrite nth_upd_neq by auto. lia.
Qed.

Lemma max_block_ok own : forall bw i id w, 
  let '(id', w') := max_block bw i own id w in
  (w <= w')%N /\ (forall j, j < length bw -> i + j <> own -> (nth j bw 0 <= w')%N) /\
  ((id' = id /\ w' = w) \/ (exists j, j < length bw /\ id' = i + j /\ i + j <> own /\ w' = nth j bw 0%N /\ (0 < w')%N)).
Proof.
  induction bw as [|x bw IH]; intros i id w; cbn [max_block].
  - split; [lia|]. split; [cbn; intros; lia|]. left. auto.
  - destruct (Nat.eqb_spec i own) as [Q|Q]; cbn [negb andb].
    + specialize (IH (S i) id w). destruct (max_block bw (S i) own id w) as [id' w']. destruct IH as (A & B & C).
      split; [auto|]. split.
      * intros [|j] Hj Nj; [lia|]. cbn. apply B; [cbn in Hj; lia|lia].
      * destruct C as [C|(j & C1 & C2 & C3 & C4 & C5)]; [left; auto|right]. exists (S j). cbn. repeat split; try lia; auto.
    + destruct (N.ltb_spec w x) as [L|L].
      * specialize (IH (S i) i x). destruct (max_block bw (S i) own i x) as [id' w']. destruct IH as (A & B & C).
        split; [lia|]. split.
        -- intros [|j] Hj Nj; [cbn; lia|]. cbn. apply B; [cbn in Hj; lia|lia].
        -- right. destruct C as [[C1 C2]|(j & C1 & C2 & C3 & C4 & C5)]; [exists 0|exists (S j)]; cbn; repeat split; try lia; auto.
      * specialize (IH (S i) id w). destruct (max_block bw (S i) own id w) as [id' w']. destruct IH as (A & B & C).
        split; [auto|]. split.
        -- intros [|j] Hj Nj; [cbn; lia|]. cbn. apply B; [cbn in Hj; lia|lia].
        -- destruct C as [C|(j & C1 & C2 & C3 & C4 & C5)]; [left; auto|right]. exists (S j). cbn. repeat split; try lia; auto.
Qed.

Lemma forget_ok : forall row nb bnd, length (fst (forget row nb bnd)) = length nb /\ length (snd (forget row nb bnd)) = length bnd /\
  forall v x, nth v (fst (forget row nb bnd)) None = Some x -> nth v nb None = Some x /\ forall t w r, In (t, w, r) row -> t <> v.
Proof.
  induction row as [|[[t w] r] row IH]; intros nb bnd; cbn [forget]; [split; [auto|split; [auto|intros v x H; split; [auto|intros ? ? ? []]]]|].
  destruct (IH (upd nb t None) (upd bnd t true)) as (A & B & C). rewrite upd_length in A. rewrite upd_length in B. split; [auto|]. split; [auto|].
  intros v x H. destruct (C v x H) as [D E]. rewrite nth_upd in D.
  destruct (Nat.eq_dec v t) as [Q|Q].
  - subst v. rewrite Nat.eqb_refl in D. destruct (t <? length nb) eqn:L; [discriminate|]. cbn in D. apply Nat.ltb_ge in L. rewrite nth_overflow in D by auto. discriminate.
  - split.
    + destruct (Nat.eqb_spec v t); [contradiction|]. cbn in D. exact D.
    + intros t' w' r' [I|I]; [injection I as <- <- <-; auto|eapply E; eauto].
Qed.

Lemma att_mv n W f x y b c : y < n -> y <> x ->
  (att n W (mv f y b) x c + (if Nat.eqb (f y) c then W x y else 0) = att n W f x c + (if Nat.eqb b c then W x y else 0))%N.
Proof.
  intros Hy N. unfold att.
  rewrite <- (bsum_single n (fun v => if Nat.eqb (f y) c then W x v else 0%N) y Hy).
  rewrite <- (bsum_single n (fun v => if Nat.eqb b c then W x v else 0%N) y Hy).
  rewrite <- !bsum_add. apply bsum_ext. intros v Hv. unfold mv.
  destruct (Nat.eqb_spec v y) as [Q|Q].
  - rewrite Q. destruct (Nat.eqb_spec y x); [contradiction|]. destruct (f y =? c), (b =? c); lia.
  - destruct (v =? x); [lia|]. destruct (f v =? c); lia.
Qed.

Lemma no_edge R x y : valid_rows R -> (forall t w r, In (t, w, r) (nth y R []) -> t <> x) -> x < length R -> y < length R -> wt (adj R) x y = 0%N.
Proof.
  intros V H Hx Hy. rewrite (valid_symm R V x y Hx Hy). unfold wt. rewrite adj_nth, sumN_filter, sumN_map. apply sumN_zero. intros [[t w] r] I. cbn [fst snd].
  destruct (Nat.eqb_spec t x); [exfalso; eapply H; eauto|reflexivity].
Qed.

Lemma edge_le R x t w r : In (t, w, r) (nth x R []) -> (w <= wt (adj R) x t)%N.
Proof.
  intro I. unfold wt. rewrite adj_nth, sumN_filter, sumN_map. cbn [fst snd].
  pose proof (sumN_In_le (fun h : half => if Nat.eqb (fst (fst h)) t then snd (fst h) else 0%N) _ _ I) as H. cbn [fst snd] in H. rewrite Nat.eqb_refl in H. exact H.
Qed.

Lemma edge_simple R x t w r : no_parallel R -> In (t, w, r) (nth x R []) -> w = wt (adj R) x t.
Proof.
  intros NP I. unfold wt. rewrite adj_nth, sumN_filter, sumN_map. cbn [fst snd]. specialize (NP x). revert NP I. generalize (nth x R []) as row.
  assert (Z : forall row : list half, ~ In t (map (fun h : half => fst (fst h)) row) -> sumN (fun h : half => if Nat.eqb (fst (fst h)) t then snd (fst h) else 0%N) row = 0%N).
  { intros row H. apply sumN_zero. intros h I. destruct (Nat.eqb_spec (fst (fst h)) t) as [Q|]; [|reflexivity]. exfalso. apply H. rewrite <- Q. apply (in_map (fun h : half => fst (fst h))). exact I. }
  induction row as [|h row IH]; intros NP I; [destruct I|]. cbn [map] in NP. inversion NP as [|? ? Nh NP']. subst. cbn [sumN]. destruct I as [I|I].
  - subst h. cbn [fst snd] in *. rewrite Nat.eqb_refl, Z by auto. lia.
  - destruct (Nat.eqb_spec (fst (fst h)) t) as [Q|]; [exfalso; apply Nh; rewrite Q; exact (in_map (fun h : half => fst (fst h)) _ _ I)|]. rewrite <- IH by auto. lia.
Qed.

Section Gain.
Context (R : list (list half)) (V : valid_rows R) (fixed : list bool) (kt nt : nat) (sol0 : list nat) (Hk : kt <= nt).
Let n := length R.
Let W := wt (adj R).

Definition cost (sol : list nat) : Z := Z.of_N (mtcost (length R) (wt (adj R)) (block_of sol)).

(** what a part of the search guarantees: from sol to sol' with reported improvement d *)
Record step_ok (sol sol' : list nat) (d : Z) : Prop := {
  so_len : length sol' = length sol;
  so_range : (forall v, v < length R -> block_of sol v < kt) -> forall v, v < length R -> block_of sol' v < kt;
  so_fixed : forall v, fixed_at fixed v = true -> block_of sol' v = block_of sol v;
  so_cost : (cost sol' + d <= cost sol)%Z;
  so_pos : (0 <= d)%Z;
  so_exact : no_parallel R -> (cost sol' + d = cost sol)%Z }.

Lemma step_refl sol : step_ok sol sol 0.
Proof. constructor; auto; try lia. Qed.

Lemma step_trans sol1 sol2 sol3 d1 d2 : step_ok sol1 sol2 d1 -> step_ok sol2 sol3 d2 -> step_ok sol1 sol3 (d1 + d2).
Proof.
  intros [A1 A2 A3 A4 A5 A6] [B1 B2 B3 B4 B5 B6]. constructor; [congruence|auto| |lia|lia|intro NP; specialize (A6 NP); specialize (B6 NP); lia].
  intros v Hv. rewrite B3 by auto. auto.
Qed.

(** the best move noted for t is exact *)
Definition note_ok (sol : list nat) (t : nat) (b : nat) (g : Z) : Prop :=
  t < n /\ fixed_at fixed t = false /\ b < kt /\
  (if Nat.eqb b (block_of sol t) then g = (- Z.of_N (att n W (block_of sol) t (block_of sol t)))%Z
   else g = (Z.of_N (att n W (block_of sol) t b) - Z.of_N (att n W (block_of sol) t (block_of sol t)))%Z).

Record ginv (vs : list nat) (s : gls) : Prop := {
  gi_sol : step_ok sol0 (g_sol s) (g_imp s);
  gi_len : length (g_sol s) = n;
  gi_range : forall v, v < n -> block_of (g_sol s) v < kt;
  gi_nb : length (g_nb s) = n;
  gi_note : forall t b g, nth t (g_nb s) None = Some (b, g) -> note_ok (g_sol s) t b g /\ ~ In t vs }.

Lemma note_far sol x mb t b g : note_ok sol t b g -> x < n -> length sol = n -> t <> x -> (forall t' w r, In (t', w, r) (nth x R []) -> t' <> t) ->
  note_ok (upd sol x mb) t b g.
Proof.
  intros (A & B & C & D) Hx L N H. split; [auto|]. split; [auto|]. split; [auto|].
  assert (E : block_of (upd sol x mb) t = block_of sol t) by (rewrite upd_mv by lia; apply mv_neq; auto). rewrite E.
  assert (F : forall c, att n W (block_of (upd sol x mb)) t c = att n W (block_of sol) t c).
  { intro c. rewrite (att_ext n W _ (mv (block_of sol) x mb)) by (intros; apply upd_mv; lia).
    pose proof (att_mv n W (block_of sol) t x mb c Hx ltac:(auto)) as M. assert (Z : W t x = 0%N) by (apply no_edge; auto). rewrite Z in M.
    destruct (Nat.eqb (block_of sol x) c), (Nat.eqb mb c); lia. }
  rewrite !F. exact D.
Qed.

Lemma move_step sol x mb : length sol = n -> x < n -> fixed_at fixed x = false -> mb < kt ->
  (cost (upd sol x mb) + Z.of_N (att n W (block_of sol) x mb) = cost sol + Z.of_N (att n W (block_of sol) x (block_of sol x)))%Z.
Proof.
  intros L Hx Fx Hm. unfold cost. fold n W. rewrite (mtcost_ext n W W _ (mv (block_of sol) x mb)) by (intros; try apply upd_mv; auto; lia).
  pose proof (move_cost n W (block_of sol) x mb (W_symm R V) Hx). lia.
Qed.

Lemma double_none n0 mb gain : forall row s b, (forall t w r, In (t, w, r) row -> nth t (g_nb s) None = None) ->
  double_moves R n0 mb gain row s b = (s, b).
Proof.
  induction row as [|[[t w] r] row IH]; intros s b H; cbn [double_moves]; [auto|]. rewrite (H t w r (or_introl eq_refl)). apply IH. intros t' w' r' I. eapply H. right. eauto.
Qed.

(** either nothing happens or exactly one neighbour moves along *)
Lemma double_ok n0 mb gain : forall row s, (forall h, In h row -> In h (nth n0 R [])) ->
  double_moves R n0 mb gain row s true = (s, true) \/
  exists t w r ng nb2 bd2, In (t, w, r) row /\ nth t (g_nb s) None = Some (mb, ng) /\ block_of (g_sol s) t = block_of (g_sol s) n0 /\
    (0 < ng + gain + 2 * Z.of_N w)%Z /\ (gain < ng + gain + 2 * Z.of_N w)%Z /\
    length nb2 = length (g_nb s) /\
    (forall v x, nth v nb2 None = Some x -> nth v (g_nb s) None = Some x /\ v <> t /\
       (forall t' w' r', In (t', w', r') (nth n0 R []) -> t' <> v) /\ (forall t' w' r', In (t', w', r') (nth t R []) -> t' <> v)) /\
    double_moves R n0 mb gain row s true = (mk_gls (upd (upd (g_sol s) n0 mb) t mb) bd2 nb2 (g_imp s + (ng + gain + 2 * Z.of_N w))%Z, false).
Proof.
  induction row as [|[[t w] r] row IH]; intros s H; cbn [double_moves]; [left; auto|].
  assert (IH' := IH s ltac:(intros h I; apply H; right; auto)).
  assert (SKIP : double_moves R n0 mb gain row s true = (s, true) \/ exists t0 w0 r0 ng nb2 bd2, In (t0, w0, r0) ((t, w, r) :: row) /\ nth t0 (g_nb s) None = Some (mb, ng) /\ block_of (g_sol s) t0 = block_of (g_sol s) n0 /\
    (0 < ng + gain + 2 * Z.of_N w0)%Z /\ (gain < ng + gain + 2 * Z.of_N w0)%Z /\
    length nb2 = length (g_nb s) /\
    (forall v x, nth v nb2 None = Some x -> nth v (g_nb s) None = Some x /\ v <> t0 /\
       (forall t' w' r', In (t', w', r') (nth n0 R []) -> t' <> v) /\ (forall t' w' r', In (t', w', r') (nth t0 R []) -> t' <> v)) /\
    double_moves R n0 mb gain row s true = (mk_gls (upd (upd (g_sol s) n0 mb) t0 mb) bd2 nb2 (g_imp s + (ng + gain + 2 * Z.of_N w0))%Z, false)).
  { destruct IH' as [E|(t0 & w0 & r0 & ng & nb2 & bd2 & I & X)]; [left; auto|right]. exists t0, w0, r0, ng, nb2, bd2. split; [right; auto|exact X]. }
  clear IH IH'. destruct (nth t (g_nb s) None) as [[nbr ng]|] eqn:E; [|exact SKIP].
  destruct (_ && _ && _ && _) eqn:Q; [|exact SKIP]. clear SKIP.
  apply andb_true_iff in Q. destruct Q as [Q Q4]. apply andb_true_iff in Q. destruct Q as [Q Q3]. apply andb_true_iff in Q. destruct Q as [Q1 Q2].
  apply Nat.eqb_eq in Q1, Q2. apply Z.ltb_lt in Q3, Q4. subst nbr. right.
  destruct (forget (nth n0 R []) (g_nb s) (g_bnd s)) as [nb1 bd1] eqn:F1. destruct (forget (nth t R []) (upd nb1 t None) bd1) as [nb2 bd2] eqn:F2.
  destruct (forget_ok (nth n0 R []) (g_nb s) (g_bnd s)) as (A1 & _ & A3). rewrite F1 in A1, A3. cbn [fst snd] in A1, A3.
  destruct (forget_ok (nth t R []) (upd nb1 t None) bd1) as (B1 & _ & B3). rewrite F2 in B1, B3. cbn [fst snd] in B1, B3. rewrite upd_length in B1.
  assert (NB : forall v x, nth v nb2 None = Some x -> nth v (g_nb s) None = Some x /\ v <> t /\
       (forall t' w' r', In (t', w', r') (nth n0 R []) -> t' <> v) /\ (forall t' w' r', In (t', w', r') (nth t R []) -> t' <> v)).
  { intros v x Hv. destruct (B3 v x Hv) as [C D]. destruct (Nat.eq_dec v t) as [Y|Y].
    - subst v. rewrite nth_upd in C. rewrite Nat.eqb_refl in C. destruct (Nat.ltb_spec t (length nb1)) as [L|L]; [discriminate C|]. cbn in C. rewrite nth_overflow in C by auto. discriminate C.
    - rewrite nth_upd_neq in C by auto. destruct (A3 v x C) as [C1 C2]. auto. }
  exists t, w, r, ng, nb2, bd2. split; [left; auto|]. split; [auto|]. split; [auto|]. split; [auto|]. split; [auto|]. split; [congruence|]. split; [exact NB|].
  apply double_none. intros t' w' r' I. cbn [g_nb]. destruct (nth t' nb2 None) as [x|] eqn:Y; [|reflexivity]. exfalso.
  destruct (NB t' x Y) as (_ & _ & X & _). apply (X t' w' r'); [apply H; right; auto|reflexivity].
Qed.

Lemma visit_ok x vs s : ginv (x :: vs) s -> x < n -> ~ In x vs ->
  exists s', gain_visit R fixed nt s x = Some s' /\ ginv vs s' /\ (g_imp s <= g_imp s')%Z /\
    (fixed_at fixed x = false -> nth x (g_bnd s) true = true -> forall b, b < kt -> b <> block_of (g_sol s) x ->
       (Z.of_N (att n W (block_of (g_sol s)) x b) - Z.of_N (att n W (block_of (g_sol s)) x (block_of (g_sol s) x)) <= g_imp s' - g_imp s)%Z).
Proof.
  intros I Hx Nx. destruct I as [SO LEN RG LNB NT]. unfold gain_visit.
  destruct (fixed_at fixed x) eqn:FX; cbn [orb].
  { exists s. split; [auto|]. split; [|split; [lia|discriminate]]. constructor; auto. intros t b g H. destruct (NT t b g H) as [A B]. split; [auto|]. intro C. apply B. right. auto. }
  destruct (nth x (g_bnd s) true) eqn:BX; cbn [negb].
  2:{ exists s. split; [auto|]. split; [|split; [lia|intros _ C; discriminate C]]. constructor; auto. intros t b g H. destruct (NT t b g H) as [A B]. split; [auto|]. intro C. apply B. right. auto. }
  set (f := block_of (g_sol s)) in *.
  destruct (block_weights_ok (g_sol s) (nth x R []) (repeat 0%N nt)) as (bw & EB & LB & NB).
  { intros t w r I. rewrite repeat_length. destruct (row_target R V x t w r I) as [Ht _]. specialize (RG t Ht). unfold f in RG. lia. }
  rewrite EB. rewrite repeat_length in LB.
  assert (AB : forall b, nth b bw 0%N = att n W f x b).
  { intro b. rewrite NB. unfold n, W. rewrite (att_row R V f x b). fold f. rewrite nth_repeat. lia. }
  pose proof (RG x Hx) as Hown. fold f in Hown. fold (f x).
  change (block_of (g_sol s) x) with (f x) in *.
  destruct (Nat.leb_spec nt (f x)) as [L|_]; [lia|].
  pose proof (max_block_ok (f x) bw 0 0 0%N) as MB. destruct (max_block bw 0 (f x) 0 0%N) as [mb mw]. destruct MB as (_ & MB2 & MB3).
  rewrite AB. set (gain := (Z.of_N mw - Z.of_N (att n W f x (f x)))%Z).
  (* the best block *)
  assert (MBK : mb < kt).
  { destruct MB3 as [[-> _]|(j & J1 & -> & J3 & J4 & J5)]; [lia|]. cbn [plus]. destruct (Nat.lt_ge_cases j kt) as [|G]; [auto|]. exfalso.
    rewrite AB in J4. unfold n, W in J4. rewrite (att_row R V f x j) in J4. rewrite sumN_zero in J4; [lia|].
    intros [[t w] r] I. cbn [fst snd]. destruct (row_target R V x t w r I) as [Ht _]. specialize (RG t Ht). fold f in RG. destruct (Nat.eqb_spec (f t) j); [lia|reflexivity]. }
  assert (BEST : forall b, b < kt -> b <> f x -> (att n W f x b <= mw)%N).
  { intros b Hb N'. rewrite <- AB. apply MB2; [lia|cbn; auto]. }
  assert (GOWN : mb = f x -> gain = (- Z.of_N (att n W f x (f x)))%Z).
  { intro Q. unfold gain. destruct MB3 as [[_ ->]|(j & J1 & J2 & J3 & J4 & J5)]; [lia|]. cbn in *. congruence. }
  assert (GOTH : mb <> f x -> gain = (Z.of_N (att n W f x mb) - Z.of_N (att n W f x (f x)))%Z).
  { intro Q. unfold gain. destruct MB3 as [[Q1 Q2]|(j & J1 & J2 & J3 & J4 & J5)].
    - pose proof (BEST mb MBK Q). lia.
    - cbn [plus] in J2. subst j. rewrite <- AB. congruence. }
  set (bd := if (0 <? mw)%N then upd (g_bnd s) x false else g_bnd s).
  destruct (double_ok x mb gain (nth x R []) (mk_gls (g_sol s) bd (g_nb s) (g_imp s)) ltac:(auto)) as [E|(t & w & r & ng & nb2 & bd2 & I & NBt & ST & M1 & M2 & L2 & N2 & E)]; rewrite E; cbn [negb g_sol g_bnd g_nb g_imp] in *.
  - destruct (Z.leb_spec 0 gain) as [G|G].
    + destruct (forget (nth x R []) (g_nb s) bd) as [nb2 bd2] eqn:F. destruct (forget_ok (nth x R []) (g_nb s) bd) as (A1 & _ & A3). rewrite F in A1, A3. cbn [fst snd] in A1, A3.
      eexists. split; [reflexivity|]. cbn [g_imp]. split; [|split; [lia|intros _ _ b Hb N'; specialize (BEST b Hb N'); unfold gain; lia]].
      pose proof (move_step (g_sol s) x mb LEN Hx FX MBK) as MS. fold f in MS.
      assert (CS : (cost (upd (g_sol s) x mb) + gain = cost (g_sol s))%Z).
      { destruct (Nat.eq_dec mb (f x)) as [Q|Q].
        - specialize (GOWN Q). rewrite Q in MS |- *. change (block_of (g_sol s) x) with (f x) in MS. lia.
        - specialize (GOTH Q). change (block_of (g_sol s) x) with (f x) in MS. lia. }
      constructor; cbn [g_sol g_nb g_imp].
      * apply step_trans with (sol2 := g_sol s); [auto|]. constructor; [rewrite upd_length; auto| | |lia|auto|auto].
        -- intros _ v Hv. rewrite upd_mv by lia. unfold mv. destruct (v =? x); [auto|apply RG; auto].
        -- intros v Fv. rewrite upd_mv by lia. apply mv_neq. intro Q. rewrite Q in Fv. congruence.
      * rewrite upd_length. auto.
      * intros v Hv. rewrite upd_mv by lia. unfold mv. destruct (v =? x); [auto|apply RG; auto].
      * congruence.
      * intros t b g H. destruct (A3 t _ H) as [B1 B2]. destruct (NT t b g B1) as [C1 C2]. split; [|intro; apply C2; right; auto].
        apply note_far; auto. intro Q. apply C2. left. auto.
    + eexists. split; [reflexivity|]. cbn [g_imp]. split; [|split; [lia|intros _ _ b Hb N'; specialize (BEST b Hb N'); unfold gain in *; lia]].
      constructor; cbn [g_sol g_nb g_imp]; auto.
      * rewrite upd_length. auto.
      * intros t b g H. destruct (Nat.eq_dec t x) as [Q|Q].
        -- subst t. rewrite nth_upd_eq in H by lia. injection H as <- <-. split; [|auto]. split; [auto|]. split; [auto|]. split; [auto|]. fold f.
           destruct (Nat.eqb_spec mb (f x)); auto.
        -- rewrite nth_upd_neq in H by auto. destruct (NT t b g H) as [C1 C2]. split; [auto|]. intro C. apply C2. right. auto.
  - (* two vertices *)
    destruct (NT t mb ng NBt) as [(T1 & T2 & _ & T4) T5]. fold f in T4, ST. fold (f t) (f x) in ST. fold (f t) in T4. change (block_of (g_sol s) t) with (f t) in *. change (block_of (g_sol s) x) with (f x) in *.
    assert (Ntx : t <> x) by (intro Q; apply T5; left; auto).
    pose proof (edge_le R x t w r I) as EL. fold W in EL.
    assert (Sxt : W x t = W t x) by (apply (W_symm R V); auto).
    assert (MO : mb <> f x).
    { intro Q. rewrite <- ST in Q. destruct (Nat.eqb_spec mb (f t)); [|contradiction]. rewrite ST in Q. specialize (GOWN Q).
      pose proof (att_ge n W f x (f x) t T1 Ntx ST). pose proof (att_ge n W f t (f t) x Hx ltac:(auto) ltac:(auto)). lia. }
    specialize (GOTH MO). destruct (Nat.eqb_spec mb (f t)) as [Q|_]; [rewrite ST in Q; contradiction|].
    eexists. split; [reflexivity|]. cbn [g_imp]. split; [|split; [lia|intros _ _ b Hb N'; specialize (BEST b Hb N'); unfold gain in *; lia]].
    pose proof (move_step (g_sol s) x mb LEN Hx FX MBK) as MS. fold f in MS. fold (f x) in MS. change (block_of (g_sol s) x) with (f x) in MS.
    assert (LEN2 : length (upd (g_sol s) x mb) = n) by (rewrite upd_length; auto).
    pose proof (move_step (upd (g_sol s) x mb) t mb LEN2 T1 T2 MBK) as MS2.
    assert (FT : block_of (upd (g_sol s) x mb) t = f t) by (rewrite upd_mv by lia; apply mv_neq; auto). rewrite FT in MS2.
    assert (AE : forall c, att n W (block_of (upd (g_sol s) x mb)) t c = att n W (mv f x mb) t c) by (intro c; apply att_ext; intros; apply upd_mv; lia).
    rewrite !AE in MS2. pose proof (att_mv n W f t x mb mb Hx ltac:(auto)) as AM1. pose proof (att_mv n W f t x mb (f t) Hx ltac:(auto)) as AM2.
    rewrite Nat.eqb_refl in AM1. destruct (Nat.eqb_spec (f x) mb); [congruence|]. rewrite ST, Nat.eqb_refl in AM2. destruct (Nat.eqb_spec mb (f x)); [contradiction|]. rewrite <- ST in AM2.
    assert (CS : (cost (upd (upd (g_sol s) x mb) t mb) + (ng + gain + 2 * Z.of_N (W t x)) = cost (g_sol s))%Z) by lia.
    constructor; cbn [g_sol g_nb g_imp].
    + apply step_trans with (sol2 := g_sol s); [auto|]. constructor; [rewrite !upd_length; auto| | |lia|lia|].
      * intros _ v Hv. rewrite upd_mv by lia. unfold mv. destruct (v =? t); [auto|]. rewrite upd_mv by lia. unfold mv. destruct (v =? x); [auto|apply RG; auto].
      * intros v Fv. rewrite upd_mv by lia. rewrite mv_neq by (intro Q; rewrite Q in Fv; congruence). rewrite upd_mv by lia. apply mv_neq. intro Q. rewrite Q in Fv. congruence.
      * intro NP. pose proof (edge_simple R x t w r NP I) as EQ. fold W in EQ. lia.
    + rewrite !upd_length. auto.
    + intros v Hv. rewrite upd_mv by lia. unfold mv. destruct (v =? t); [auto|]. rewrite upd_mv by lia. unfold mv. destruct (v =? x); [auto|apply RG; auto].
    + congruence.
    + intros t' b g H. destruct (N2 t' _ H) as (B1 & B2 & B3 & B4). destruct (NT t' b g B1) as [C1 C2]. split; [|intro; apply C2; right; auto].
      apply note_far; auto. apply note_far; auto. intro Q. apply C2. left. auto.
Qed.

Lemma visits_ok : forall vs s, ginv vs s -> NoDup vs -> (forall v, In v vs -> v < n) ->
  exists s', gain_visits R fixed nt vs s = Some s' /\ ginv [] s' /\ (g_imp s <= g_imp s')%Z.
Proof.
  induction vs as [|x vs IH]; intros s I ND H; cbn [gain_visits]; [exists s; split; [auto|split; [auto|lia]]|].
  inversion ND as [|? ? Nx ND']. subst. destruct (visit_ok x vs s I (H x (or_introl eq_refl)) Nx) as (s1 & E & I1 & M & _). rewrite E.
  destruct (IH s1 I1 ND' ltac:(intros v Hv; apply H; right; auto)) as (s2 & E2 & I2 & M2). exists s2. split; [auto|]. split; [auto|lia].
Qed.

Lemma start_ginv vs : length sol0 = n -> (forall v, v < n -> block_of sol0 v < kt) -> ginv vs (mk_gls sol0 (repeat true n) (repeat None n) 0).
Proof.
  intros L H. constructor; cbn [g_sol g_nb g_imp]; auto; [apply step_refl|apply repeat_length|].
  intros t b g Q. rewrite nth_repeat in Q. discriminate Q.
Qed.

Theorem gain_ok perm : length sol0 = n -> (forall v, v < n -> block_of sol0 v < kt) -> Permutation perm (seq 0 n) ->
  exists sol' d, gain_search R fixed nt perm sol0 = Some (sol', d) /\ step_ok sol0 sol' d /\
    (forall x vs b, perm = x :: vs -> fixed_at fixed x = false -> b < kt -> b <> block_of sol0 x ->
       (Z.of_N (att n W (block_of sol0) x b) - Z.of_N (att n W (block_of sol0) x (block_of sol0 x)) <= d)%Z).
Proof.
  intros L H P. assert (ND : NoDup perm) by (eapply Permutation_NoDup; [apply Permutation_sym; exact P|apply seq_NoDup]).
  assert (RP : forall v, In v perm -> v < n) by (intros v I; apply (Permutation_in _ P), in_seq in I; lia).
  unfold gain_search. fold n. destruct perm as [|x vs].
  - exists sol0, 0%Z. split; [reflexivity|]. split; [apply step_refl|]. intros x vs b Q. discriminate Q.
  - inversion ND as [|? ? Nx ND']. subst. cbn [gain_visits].
    destruct (visit_ok x vs _ (start_ginv _ L H) (RP x (or_introl eq_refl)) Nx) as (s1 & E & I1 & M & F). rewrite E.
    destruct (visits_ok vs s1 I1 ND' ltac:(intros v Hv; apply RP; right; auto)) as (s2 & E2 & I2 & M2). rewrite E2. cbn [option_map].
    exists (g_sol s2), (g_imp s2). split; [reflexivity|]. split; [apply (gi_sol _ _ I2)|].
    intros x' vs' b Q Fx Hb N'. injection Q as <- <-. cbn [g_sol g_imp g_bnd] in *. rewrite nth_repeat_lt in F by (apply RP; left; auto).
    specialize (F Fx eq_refl b Hb N'). lia.
Qed.
End Gain.
