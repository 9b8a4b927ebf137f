(* P_ParCapforest.v - each thread of parallel_modified_capforest scans in maximum adjacency order of
   the weights it has added up, whatever it reads from visited[]; so it only unites pairs of high
   connectivity. *)
From Verif Require Import SpecRel SpecCut P_Cut M_ParCapforest P_Heap P_BucketPQ P_Capforest.

Lemma cutw_mono n (A B : wfun) S : (forall u v, u < n -> v < n -> (A u v <= B u v)%N) -> (cutw n A S <= cutw n B S)%N.
Proof.
  intro H. unfold cutw, bsum. apply sumN_le. intros u Hu. apply in_seq in Hu. apply sumN_le. intros v Hv. apply in_seq in Hv.
  destruct (S u && negb (S v)); [apply H; lia|lia].
Qed.

Lemma conn_ge_mono n (A B : wfun) c x y : (forall u v, u < n -> v < n -> (A u v <= B u v)%N) -> conn_ge n A c x y -> conn_ge n B c x y.
Proof. intros H C S D. etransitivity; [apply (C S D)|]. apply cutw_mono. auto. Qed.

Lemma dto_ext (A B : wfun) l t : (forall x, In x l -> A x t = B x t) -> dto A l t = dto B l t.
Proof. intro H. apply sumN_ext. auto. Qed.

Lemma ma_ext n (A B : wfun) c : forall l v, (forall x y, In x l -> A x y = B x y) -> ma_order n A c (v :: l) -> ma_order n B c (v :: l).
Proof.
  induction l as [|z l IH]; intros v H [M MA].
  - split; [|exact I]. intros t _ _. unfold dto. simpl. lia.
  - split.
    + intros t Ht Nt. rewrite <- !(dto_ext A B); auto.
    + apply IH; [|exact MA]. intros x y Hx. apply H. right. auto.
Qed.

Lemma ma_zero n (A B : wfun) c v : forall l, (forall x y, y <> v -> A x y = B x y) -> (forall x, B x v = 0%N) -> ~ In v l ->
  ma_order n A c l -> ma_order n B c l.
Proof.
  induction l as [|z l IH]; intros H Z Nv MA; [exact I|]. destruct MA as [M MA]. split.
  - intros t Ht Nt. destruct (Nat.eq_dec t v) as [->|Nt'].
    + rewrite (dto_ext B (fun _ _ => 0%N) l v) by (intros; apply Z). unfold dto at 1. rewrite (sumN_zero (fun _ => 0%N)) by auto. lia.
    + assert (Nz : z <> v) by (intros ->; apply Nv; left; auto).
      rewrite <- !(dto_ext A B) by (intros; apply H; auto). auto.
  - apply IH; auto. intro X. apply Nv. right. auto.
Qed.

Section Thread.
Variables (dis : bool) (G : graph) (c : N).
Let n := length G.
Let W := wt G.
Let span := N.to_nat (c + 1).
Hypothesis U : undirected G.
Hypothesis H32 : (c + 1 < 2147483648)%N.

Lemma pushed q m t k : pq_ok n span q m -> t < n -> (k <= c)%N -> (forall k0, m t = Some k0 -> (k0 <= k)%N) ->
  exists q' m', par_push q t k = Some q' /\ pq_ok n span q' m' /\ forall u, m' u = qset m t (Some k) u.
Proof.
  intros Q Ht Hk Hm. unfold par_push.
  assert (K : key32 k = k) by (apply key32_small; lia).
  destruct (pq_step_ok n span q m (QContains t) Q) as [q1 [r [m1 [E [Q1 R]]]]]; [exact Ht|exact Ht|].
  rewrite E. destruct r; simpl in R; try contradiction. destruct R as [B M1].
  destruct b.
  - destruct (m t) as [k0|] eqn:Mt; [|exfalso; apply B; auto].
    destruct (pq_increase n span q1 m1 t k k0 Q1 Ht) as [q2 [E2 [m2 [Q2 M2]]]]; [rewrite M1; auto|rewrite K; auto|rewrite K; unfold span; lia|].
    rewrite E2. exists q2, m2. split; [auto|]. split; [auto|]. intro u. rewrite M2, K. unfold qset. rewrite M1. auto.
  - destruct (m t) as [k0|] eqn:Mt; [exfalso; assert (X : false = true) by (apply B; discriminate); discriminate|].
    destruct (pq_insert n span q1 m1 t k Q1 Ht) as [q2 [E2 [m2 [Q2 M2]]]]; [rewrite M1; auto|rewrite K; unfold span; lia|].
    rewrite E2. exists q2, m2. split; [auto|]. split; [auto|]. intro u. rewrite M2, K. unfold qset. rewrite M1. auto.
Qed.

(** sc: the vertices scanned, latest first; A: the weights added up between them and the others *)
Record core (sc : list nat) (A : wfun) (r : nat -> N) (q : pq) (loc : list bool) (m : qmap) : Prop := {
  k_q : pq_ok n span q m;
  k_ll : length loc = n;
  k_nd : NoDup sc;
  k_sc : forall x, In x sc -> x < n /\ nth x loc false = true;
  k_sym : forall u v, A u v = A v u;
  k_le : forall u v, u < n -> v < n -> (A u v <= W u v)%N;
  k_zero : forall u v, ~ In u sc -> ~ In v sc -> A u v = 0%N;
  k_ma : ma_order n A c sc;
  k_r : forall t, t < n -> nth t loc false = false -> r t = N.min c (dto A sc t);
  k_m : forall t k, m t = Some k -> t < n /\ nth t loc false = false /\ k = r t;
  k_n : forall t, t < n -> nth t loc false = false -> m t = None -> r t = 0%N;
  k_dead : forall u x, nth u loc false = true -> ~ In u sc -> A u x = 0%N }.

Definition rr (s : cth) : nat -> N := fun x => nth x (c_r s) 0%N.

(** scanning v: the edges pre are done, the edges es are not *)
Definition scanning (s : cth) (r : nat -> N) (v : nat) (es : list (nat * N)) : Prop :=
  exists sc A m pre, core (v :: sc) A r (c_q s) (c_loc s) m /\ pre ++ es = nth v G [] /\
    forall t, t < n -> nth t (c_loc s) false = false -> (A v t <= deltato pre t)%N.

Definition tinv (s : cth) : Prop :=
  length (c_r s) = n /\
  match c_pc s with
  | CPop | CDone => exists sc A m, core sc A (rr s) (c_q s) (c_loc s) m
  | CCheck v | CWrite v => scanning s (rr s) v (nth v G [])
  | CEdges v es => scanning s (rr s) v es
  | CRead1 v t w es => scanning s (rr s) v ((t, w) :: es) /\ t < n /\ nth t (c_loc s) false = false
  | CRead2 v t k es => exists r0 w, t < n /\ nth t (c_loc s) false = false /\ rr s t = k /\ k = N.min (r0 + w) c /\
      scanning s (fun x => if x =? t then r0 else rr s x) v ((t, w) :: es)
  end.

Lemma deltato_le a b t : (deltato a t <= deltato (a ++ b) t)%N.
Proof. rewrite deltato_app. lia. Qed.

Lemma skip_edge s r v e es : scanning s r v (e :: es) -> scanning s r v es.
Proof.
  intros [sc [A [m [pre [K [E L]]]]]]. exists sc, A, m, (pre ++ [e]). split; [auto|]. split; [rewrite <- app_assoc; auto|].
  intros t Ht Lt. etransitivity; [apply L; auto|]. apply deltato_le.
Qed.

Definition add_w (A : wfun) (v t : nat) (w : N) : wfun :=
  fun a b => if (a =? v) && (b =? t) || (a =? t) && (b =? v) then (A a b + w)%N else A a b.

Lemma add_w_other A v t w a b : (a <> v \/ b <> t) -> (a <> t \/ b <> v) -> add_w A v t w a b = A a b.
Proof.
  intros H1 H2. unfold add_w. destruct (Nat.eqb_spec a v), (Nat.eqb_spec b t), (Nat.eqb_spec a t), (Nat.eqb_spec b v); simpl; try reflexivity; tauto.
Qed.

Lemma add_w_it A v t w : add_w A v t w v t = (A v t + w)%N.
Proof. unfold add_w. rewrite !Nat.eqb_refl. reflexivity. Qed.

(** adding the weight of an edge (v,t) that is being processed *)
Lemma added sc A r q loc m v t w pre es : core (v :: sc) A r q loc m -> pre ++ (t, w) :: es = nth v G [] ->
  t < n -> nth t loc false = false ->
  (forall t, t < n -> nth t loc false = false -> (A v t <= deltato pre t)%N) ->
  let A' := add_w A v t w in
  (forall a b, A' a b = A' b a) /\ (forall a b, a < n -> b < n -> (A' a b <= W a b)%N) /\
  ma_order n A' c (v :: sc) /\ dto A' (v :: sc) t = (dto A (v :: sc) t + w)%N /\
  (forall x, x < n -> x <> t -> nth x loc false = false -> dto A' (v :: sc) x = dto A (v :: sc) x).
Proof.
  intros K E Ht Lt L A'. destruct (k_sc _ _ _ _ _ _ K v) as [Hv Lv]; [left; auto|].
  assert (Nvt : v <> t) by (intros ->; congruence).
  assert (Nt : ~ In t (v :: sc)) by (intro H; destruct (k_sc _ _ _ _ _ _ K t H); congruence).
  pose proof (k_nd _ _ _ _ _ _ K) as ND. apply NoDup_cons_iff in ND. destruct ND as [Nv ND].
  assert (LW : (A v t + w <= W v t)%N).
  { unfold W, wt. fold (deltato (nth v G []) t). rewrite <- E, deltato_app. specialize (L t Ht Lt).
    change ((t, w) :: es) with ([(t, w)] ++ es). rewrite deltato_app, deltato_one, Nat.eqb_refl. lia. }
  assert (SY : forall a b, A' a b = A' b a).
  { intros a b. unfold A', add_w. rewrite (k_sym _ _ _ _ _ _ K a b).
    destruct (a =? v), (b =? t), (a =? t), (b =? v); reflexivity. }
  split; [exact SY|]. split; [|split; [|split]].
  - intros a b Ha Hb. destruct U as [_ U2].
    destruct (Nat.eq_dec a v) as [->|N1].
    + destruct (Nat.eq_dec b t) as [->|N2]; [unfold A'; rewrite add_w_it; auto|].
      unfold A'. rewrite add_w_other by auto. apply (k_le _ _ _ _ _ _ K); auto.
    + destruct (Nat.eq_dec a t) as [->|N2].
      * destruct (Nat.eq_dec b v) as [->|N3].
        -- rewrite SY. unfold A'. rewrite add_w_it. unfold W. rewrite (U2 t v) by auto. auto.
        -- unfold A'. rewrite add_w_other by auto. apply (k_le _ _ _ _ _ _ K); auto.
      * unfold A'. rewrite add_w_other by auto. apply (k_le _ _ _ _ _ _ K); auto.
  - apply (ma_ext n A A' c sc v); [|apply (k_ma _ _ _ _ _ _ K)].
    intros x y Hx. unfold A'. rewrite add_w_other; [reflexivity| |].
    + left. intros ->. contradiction.
    + left. intros ->. apply Nt. right. auto.
  - unfold dto. cbn [sumN]. unfold A' at 1. rewrite add_w_it.
    rewrite (sumN_ext (fun x => A' x t) (fun x => A x t)); [lia|].
    intros x Hx. unfold A'. apply add_w_other; [left; intros ->; contradiction|right; auto].
  - intros x Hx Nx Lx. apply dto_ext. intros y Hy. unfold A'. apply add_w_other; [right; auto|].
    right. intros ->. congruence.
Qed.

(** a processed edge that reaches the bound joins highly connected vertices *)
Lemma union_good s v t w es : scanning s (rr s) v ((t, w) :: es) -> t < n -> nth t (c_loc s) false = false ->
  (nth t (c_r s) 0 < c)%N -> (c <= nth t (c_r s) 0 + w)%N -> conn_ge n W c v t.
Proof.
  intros [sc [A [m [pre [K [E L]]]]]] Ht Lt R1 R2.
  destruct (added sc A _ _ _ m v t w pre es K E Ht Lt L) as [SY [LE [MA [D _]]]].
  apply (conn_ge_mono n (add_w A v t w) W); [exact LE|].
  assert (R : nth t (c_r s) 0%N = N.min c (dto A (v :: sc) t)) by (apply (k_r _ _ _ _ _ _ K); auto).
  apply ma_conn with (l := sc); auto.
  - intros u x _ _. apply SY.
  - intros x Hx. apply (k_sc _ _ _ _ _ _ K). auto.
  - apply (k_nd _ _ _ _ _ _ K).
  - intro H. destruct (k_sc _ _ _ _ _ _ K t H). congruence.
  - rewrite D. lia.
Qed.

(** popping v *)
Lemma popped sc A r q loc m v k q' m' : core sc A r q loc m -> qmax m v k -> pq_ok n span q' m' -> (forall u, m' u = qset m v None u) ->
  core (v :: sc) A r q' (upd loc v true) m' /\ v < n /\ forall t, t < n -> nth t (upd loc v true) false = false -> (A v t <= 0)%N.
Proof.
  intros K [Mv Mx] Q' M'. destruct (k_m _ _ _ _ _ _ K v k Mv) as [Hv [Lv Ek]].
  assert (LL := k_ll _ _ _ _ _ _ K).
  assert (NL : forall x, nth x (upd loc v true) false = if x =? v then true else nth x loc false).
  { intro x. rewrite nth_upd, LL. replace (v <? n) with true by (symmetry; apply Nat.ltb_lt; auto). rewrite andb_true_r. reflexivity. }
  assert (Nv : ~ In v sc) by (intro H; destruct (k_sc _ _ _ _ _ _ K v H); congruence).
  assert (Z : forall t, nth t loc false = false -> A v t = 0%N).
  { intros t Lt. apply (k_zero _ _ _ _ _ _ K); auto. intro H. destruct (k_sc _ _ _ _ _ _ K t H). congruence. }
  split; [|split; [auto|]].
  - constructor; auto.
    + rewrite upd_length. auto.
    + constructor; [auto|apply (k_nd _ _ _ _ _ _ K)].
    + intros x [<-|Hx]; [split; [auto|]; rewrite NL, Nat.eqb_refl; auto|].
      destruct (k_sc _ _ _ _ _ _ K x Hx). split; [auto|]. rewrite NL. destruct (x =? v); auto.
    + apply (k_sym _ _ _ _ _ _ K).
    + apply (k_le _ _ _ _ _ _ K).
    + intros a b Na Nb. apply (k_zero _ _ _ _ _ _ K); intro H; [apply Na|apply Nb]; right; auto.
    + split; [|apply (k_ma _ _ _ _ _ _ K)]. intros t Ht Nt.
      assert (Nt' : ~ In t sc) by (intro H; apply Nt; right; auto).
      destruct (nth t loc false) eqn:Lt.
      * rewrite (dto_ext A (fun _ _ => 0%N) sc t).
        -- unfold dto at 1. rewrite (sumN_zero (fun _ => 0%N)) by auto. lia.
        -- intros x _. rewrite (k_sym _ _ _ _ _ _ K). apply (k_dead _ _ _ _ _ _ K); auto.
      * rewrite <- !(k_r _ _ _ _ _ _ K) by auto. rewrite <- Ek. destruct (m t) as [kt|] eqn:Mt.
        -- destruct (k_m _ _ _ _ _ _ K t kt Mt) as [_ [_ <-]]. apply (Mx t kt Mt).
        -- rewrite (k_n _ _ _ _ _ _ K t) by auto. lia.
    + intros t Ht Lt. rewrite NL in Lt. destruct (t =? v); [discriminate|]. rewrite (k_r _ _ _ _ _ _ K) by auto.
      unfold dto. cbn [sumN]. rewrite Z by auto. lia.
    + intros t k' H. rewrite M' in H. unfold qset in H. destruct (Nat.eqb_spec t v) as [->|N]; [discriminate|].
      destruct (k_m _ _ _ _ _ _ K t k' H) as [X [Y T]]. split; [auto|]. split; [|auto]. rewrite NL.
      destruct (Nat.eqb_spec t v); [contradiction|auto].
    + intros t Ht Lt H. rewrite NL in Lt. rewrite M' in H. unfold qset in H. destruct (t =? v); [discriminate|].
      apply (k_n _ _ _ _ _ _ K); auto.
    + intros u x Lu Nu. rewrite NL in Lu. destruct (Nat.eqb_spec u v) as [->|N]; [exfalso; apply Nu; left; auto|].
      apply (k_dead _ _ _ _ _ _ K); auto. intro H. apply Nu. right. auto.
  - intros t Ht Lt. rewrite NL in Lt. destruct (t =? v); [discriminate|]. rewrite Z by auto. lia.
Qed.

(** a popped vertex that somebody else has scanned already *)
Lemma dropped sc A r q loc m v : core (v :: sc) A r q loc m -> (forall t, t < n -> nth t loc false = false -> (A v t <= 0)%N) ->
  exists A', core sc A' r q loc m.
Proof.
  intros K Z. pose proof (k_nd _ _ _ _ _ _ K) as ND. apply NoDup_cons_iff in ND. destruct ND as [Nv ND].
  destruct (k_sc _ _ _ _ _ _ K v) as [Hv Lv]; [left; auto|].
  set (B := fun a b => if (a =? v) || (b =? v) then 0%N else A a b).
  assert (NE : forall x, In x sc -> x <> v) by (intros x Hx ->; contradiction).
  assert (BE : forall a b, a <> v -> b <> v -> B a b = A a b).
  { intros a b Ha Hb. unfold B. destruct (Nat.eqb_spec a v), (Nat.eqb_spec b v); try contradiction. reflexivity. }
  exists B. constructor.
  - apply (k_q _ _ _ _ _ _ K).
  - apply (k_ll _ _ _ _ _ _ K).
  - auto.
  - intros x Hx. apply (k_sc _ _ _ _ _ _ K). right. auto.
  - intros a b. unfold B. rewrite orb_comm, (k_sym _ _ _ _ _ _ K a b). reflexivity.
  - intros a b Ha Hb. unfold B. destruct ((a =? v) || (b =? v)); [lia|]. apply (k_le _ _ _ _ _ _ K); auto.
  - intros a b Na Nb. unfold B. destruct (Nat.eqb_spec a v) as [|Ea]; [reflexivity|]. destruct (Nat.eqb_spec b v) as [|Eb]; [reflexivity|].
    simpl. apply (k_zero _ _ _ _ _ _ K); intros [H|H]; congruence.
  - pose proof (k_ma _ _ _ _ _ _ K) as MA. destruct MA as [_ MA].
    apply (ma_zero n (fun a b => if Nat.eqb a v then 0%N else A a b) B c v sc); auto.
    + intros x y Ny. unfold B. destruct (Nat.eqb_spec y v); [contradiction|]. rewrite orb_false_r. reflexivity.
    + intro x. unfold B. rewrite Nat.eqb_refl, orb_true_r. reflexivity.
    + destruct sc as [|z sc']; [exact I|]. eapply ma_ext; [|exact MA]. intros x y Hx. cbn beta.
      destruct (Nat.eqb_spec x v) as [->|]; [|reflexivity]. exfalso. apply Nv. right. auto.
  - intros t Ht Lt. rewrite (k_r _ _ _ _ _ _ K) by auto. assert (Nt : t <> v) by (intros ->; congruence).
    unfold dto. cbn [sumN]. specialize (Z t Ht Lt). replace (A v t) with 0%N by lia.
    rewrite (sumN_ext (fun x => B x t) (fun x => A x t)); [reflexivity|]. intros x Hx. apply BE; auto.
  - apply (k_m _ _ _ _ _ _ K).
  - apply (k_n _ _ _ _ _ _ K).
  - intros u x Lu Nu. unfold B. destruct (Nat.eqb_spec u v) as [|E1]; [reflexivity|]. destruct (x =? v); [reflexivity|].
    simpl. apply (k_dead _ _ _ _ _ _ K); auto. intros [H|H]; congruence.
Qed.

(** a step on any value read keeps the invariant and unites only highly connected vertices, as long as
    the second read agrees with the first *)
Lemma cstep_ok s b : tinv s -> (forall v t k es, c_pc s = CRead2 v t k es -> b = false) ->
  exists s' evs, cstep dis G c s b = Some (s', evs) /\ tinv s' /\ forall x y, In (EVUnion x y) evs -> conn_ge n W c x y.
Proof.
  intros [LR I] AG. destruct s as [q bl r loc p]. unfold cstep. cbn [c_pc c_q c_black c_r c_loc] in *. destruct p as [|v|v|v es|v t w es|v t k es|].
  - destruct I as [sc [A [m K]]].
    destruct (pq_empty n span q m (k_q _ _ _ _ _ _ K)) as [q1 [e [m1 [-> [Q1 [B M1]]]]]]. destruct e.
    + eexists _, _. split; [reflexivity|]. split; [|intros x y []]. split; [exact LR|]. cbn [c_pc c_q c_loc].
      exists sc, A, m1. destruct K as [K1 K2 K3 K4 K5 K6 K7 K8 K9 K10 K11 K12]. constructor; auto.
      * intros t k. rewrite M1. apply K10.
      * intros t Ht Lt. rewrite M1. apply K11; auto.
    + assert (NE : nonempty m1).
      { assert (X : existsb (fun v => match m v with Some _ => true | None => false end) (seq 0 n) = true).
        { destruct (existsb _ _) eqn:X; [auto|]. apply B. intro v. destruct (m v) as [k|] eqn:Mv; [|auto].
          destruct (k_m _ _ _ _ _ _ K v k Mv) as [Hv _]. rewrite existsb_false in X.
          specialize (X v ltac:(apply in_seq; lia)). rewrite Mv in X. discriminate. }
        apply existsb_exists in X. destruct X as [v [_ X]]. destruct (m v) as [k|] eqn:Mv; [|discriminate].
        exists v, k. rewrite M1. auto. }
      destruct (pq_delmax n span q1 m1 Q1 NE) as [q2 [v [k [m2 [-> [Q2 [MX M2]]]]]]].
      assert (MX' : qmax m v k) by (destruct MX as [X Y]; split; [rewrite <- M1; auto|intros u k'; rewrite <- M1; apply Y]).
      destruct (popped sc A _ q loc m v k q2 m2 K MX' Q2) as [K' [Hv Z]].
      { intro u. rewrite M2. unfold qset. rewrite M1. reflexivity. }
      replace (v <? length G) with true by (symmetry; apply Nat.ltb_lt; auto).
      destruct dis; eexists _, _; (split; [reflexivity|]; split; [|intros x y []]; split; [exact LR|]);
        cbn [c_pc c_q c_loc]; exists sc, A, m2, []; (split; [exact K'|]; split; [reflexivity|exact Z]).
  - destruct I as [sc [A [m [pre [K [E L]]]]]]. eexists _, _. split; [reflexivity|]. split; [|intros x y [H|[]]; discriminate].
    split; [exact LR|]. cbn [c_pc c_q c_loc].
    assert (pre = []) as ->.
    { destruct pre as [|e pre]; [auto|]. apply (f_equal (@length _)) in E. rewrite app_length in E. simpl in E. lia. }
    destruct b.
    + destruct (dropped sc A _ q loc m v K L) as [A' K']. exists sc, A', m. exact K'.
    + exists sc, A, m, []. auto.
  - eexists _, _. split; [reflexivity|]. split; [|intros x y [H|[]]; discriminate]. split; [exact LR|exact I].
  - destruct es as [|[t w] es].
    + eexists _, _. split; [reflexivity|]. split; [|intros x y []]. split; [exact LR|].
      destruct I as [sc [A [m [pre [K _]]]]]. exists (v :: sc), A, m. exact K.
    + destruct U as [U1 _].
      assert (Ht : t < n).
      { destruct I as [sc [A [m [pre [_ [E _]]]]]]. apply (U1 v t w). rewrite <- E. apply in_or_app. right. left. auto. }
      replace (t <? length G) with true by (symmetry; apply Nat.ltb_lt; auto).
      destruct (negb (nth t loc false) && (nth t r 0 <? c)%N) eqn:C.
      * apply andb_prop in C. destruct C as [C1 C2]. apply negb_true_iff in C1. apply N.ltb_lt in C2.
        eexists _, _. split; [reflexivity|]. split.
        -- split; [exact LR|]. cbn [c_pc c_loc]. split; [exact I|]. auto.
        -- intros x y H. destruct ((c <=? nth t r 0 + w)%N && negb (nth t bl false)) eqn:D; [|contradiction].
           destruct H as [H|[]]. injection H as <- <-. apply andb_prop in D. destruct D as [D _]. apply N.leb_le in D.
           exact (union_good _ v t w es I Ht C1 C2 D).
      * eexists _, _. split; [reflexivity|]. split; [|intros x y []]. split; [exact LR|]. eapply skip_edge. exact I.
  - destruct I as [I [Ht Lt]]. destruct b.
    + eexists _, _. split; [reflexivity|]. split; [|intros x y [H|[]]; discriminate]. split; [exact LR|]. eapply skip_edge. exact I.
    + eexists _, _. split; [reflexivity|]. split; [|intros x y [H|[]]; discriminate].
      set (k := N.min (nth t r 0%N + w) c). assert (RK : rv32 k = k) by (apply N.mod_small; unfold k; lia).
      split; [cbn [c_r]; rewrite upd_length; exact LR|]. cbn [c_pc c_q c_loc]. exists (nth t r 0%N), w.
      cbn [c_r] in LR. split; [auto|]. split; [auto|]. unfold rr. cbn [c_r]. rewrite RK. split; [|split; [reflexivity|]].
      * rewrite nth_upd, LR, Nat.eqb_refl. replace (t <? n) with true by (symmetry; apply Nat.ltb_lt; auto). reflexivity.
      * destruct I as [sc [A [m [pre [K [E L]]]]]]. exists sc, A, m, pre. split; [|auto].
        assert (EX : forall x, (if Nat.eqb x t then nth t r 0%N else nth x (upd r t k) 0%N) = nth x r 0%N).
        { intro x. rewrite nth_upd. destruct (Nat.eqb_spec x t) as [->|]; reflexivity. }
        destruct K. unfold rr in *. cbn [c_r c_q c_loc] in *. constructor; auto.
        -- intros x Hx Lx. rewrite EX. auto.
        -- intros x k' H. rewrite EX. auto.
        -- intros x Hx Lx H. rewrite EX. auto.
  - assert (b = false) as -> by (eapply AG; reflexivity).
    destruct I as [r0 [w [Ht [Lt [Rt [Ek [sc [A [m [pre [K [E L]]]]]]]]]]]]. cbn [c_loc c_q] in *. rewrite Lt. cbn [negb andb].
    pose proof (added sc A _ q loc m v t w pre es K E Ht Lt L) as [SY [LE [MA [D DO]]]].
    assert (R0 : r0 = N.min c (dto A (v :: sc) t)).
    { rewrite <- (k_r _ _ _ _ _ _ K t Ht Lt). cbn beta. rewrite Nat.eqb_refl. reflexivity. }
    destruct (pushed q m t k (k_q _ _ _ _ _ _ K) Ht) as [q' [m' [-> [Q' M']]]].
    { lia. }
    { intros k0 H. destruct (k_m _ _ _ _ _ _ K t k0 H) as [_ [_ ->]]. rewrite Nat.eqb_refl. lia. }
    eexists _, _. split; [reflexivity|]. split; [|intros x y [H|[]]; discriminate]. split; [exact LR|]. cbn [c_pc c_q c_loc].
    exists sc, (add_w A v t w), m', (pre ++ [(t, w)]). cbn [c_q c_loc]. split; [|split; [rewrite <- app_assoc; exact E|]].
    + assert (Nvt : ~ In t (v :: sc)) by (intro H; destruct (k_sc _ _ _ _ _ _ K t H); congruence).
      constructor; auto.
      * apply (k_ll _ _ _ _ _ _ K).
      * apply (k_nd _ _ _ _ _ _ K).
      * apply (k_sc _ _ _ _ _ _ K).
      * intros a b Na Nb. rewrite add_w_other; [apply (k_zero _ _ _ _ _ _ K); auto| |].
        -- left. intros ->. apply Na. left. auto.
        -- right. intros ->. apply Nb. left. auto.
      * intros x Hx Lx. destruct (Nat.eq_dec x t) as [->|N].
        -- change (rr _ t) with (nth t r 0%N). change (nth t r 0%N = k) in Rt. rewrite Rt, D. lia.
        -- rewrite DO by auto. rewrite <- (k_r _ _ _ _ _ _ K x Hx Lx). cbn beta. destruct (Nat.eqb_spec x t); [contradiction|reflexivity].
      * intros x k' H. rewrite M' in H. unfold qset in H. destruct (Nat.eqb_spec x t) as [->|N].
        -- injection H as <-. auto.
        -- destruct (k_m _ _ _ _ _ _ K x k' H) as [X [Y ->]]. split; [auto|]. split; [auto|]. destruct (Nat.eqb_spec x t); [contradiction|reflexivity].
      * intros x Hx Lx H. rewrite M' in H. unfold qset in H. destruct (Nat.eqb_spec x t) as [->|N]; [discriminate|].
        pose proof (k_n _ _ _ _ _ _ K x Hx Lx H) as X. cbn beta in X. destruct (Nat.eqb_spec x t); [contradiction|exact X].
      * intros u x Lu Nu. rewrite add_w_other; [apply (k_dead _ _ _ _ _ _ K); auto| |].
        -- left. intros ->. apply Nu. left. auto.
        -- left. intros ->. congruence.
    + intros x Hx Lx. destruct (k_sc _ _ _ _ _ _ K v) as [Hv Lv]; [left; auto|].
      rewrite deltato_app, deltato_one. destruct (Nat.eqb_spec t x) as [->|N].
      * rewrite add_w_it. specialize (L x Hx Lx). lia.
      * rewrite add_w_other by (right; auto; intros ->; congruence). specialize (L x Hx Lx). lia.
  - eexists _, _. split; [reflexivity|]. split; [|intros x y []]. split; [exact LR|exact I].
Qed.

Lemma init_ok v : v < n -> exists s, cth_init G c v = Some s /\ tinv s.
Proof.
  intros Hv. unfold cth_init. fold n span.
  assert (Q0 : pq_ok n span (PBucket true (bq_init n span)) qempty).
  { split; [apply wfb_init|]. intro u. unfold qempty. symmetry. apply babs_init. }
  destruct (pq_insert n span _ qempty v 0%N Q0 Hv eq_refl) as [q [E [m [Q M]]]]; [unfold key32; simpl; lia|].
  rewrite E. eexists. split; [reflexivity|]. split; [apply repeat_length|]. cbn [c_pc c_q c_loc].
  exists [], (fun _ _ => 0%N), m. constructor; auto.
  - apply repeat_length.
  - constructor.
  - intros x [].
  - intros; lia.
  - exact I.
  - intros t _ _. unfold rr. cbn [c_r]. rewrite nth_repeat_any. unfold dto. simpl. lia.
  - intros t k H. rewrite M in H. unfold qset, qempty in H. destruct (Nat.eqb_spec t v) as [->|]; [|discriminate].
    injection H as <-. split; [auto|]. unfold rr. cbn [c_r]. rewrite !nth_repeat_any. auto.
  - intros t _ _ _. unfold rr. cbn [c_r]. apply nth_repeat_any.
Qed.

End Thread.
