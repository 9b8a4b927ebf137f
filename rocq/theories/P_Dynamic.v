(* P_Dynamic.v - cuts under edge updates, trees of cuts and their contraction (for the dynamic minimum cut). *)
From Verif Require Import SpecCut P_Cut SpecMutable SpecDyn.

(** ** changing the weight of one pair *)
Definition on_pair (s t a b : nat) : bool := ((a =? s) && (b =? t)) || ((a =? t) && (b =? s)).

Lemma cutw_add n W W' S : cutw n (fun a b => W a b + W' a b)%N S = (cutw n W S + cutw n W' S)%N.
Proof. unfold cutw. rewrite <- bsum_add. apply bsum_ext. intros u _. rewrite <- bsum_add. apply bsum_ext. intros v _. destruct (_ && _); lia. Qed.

Lemma cutw_pair n s t w S : s < n -> t < n -> s <> t -> cutw n (fun a b => if on_pair s t a b then w else 0%N) S = if Bool.eqb (S s) (S t) then 0%N else w.
Proof.
  intros Hs Ht N. unfold cutw.
  assert (E : bsum n (fun u => bsum n (fun v => if S u && negb (S v) then if on_pair s t u v then w else 0%N else 0%N))
    = (bsum n (fun u => if Nat.eqb u s then (if S s && negb (S t) then w else 0) else 0) + bsum n (fun u => if Nat.eqb u t then (if S t && negb (S s) then w else 0) else 0))%N).
  { rewrite <- bsum_add. apply bsum_ext. intros u Hu. unfold on_pair. destruct (Nat.eqb_spec u s) as [->|A].
    - destruct (Nat.eqb_spec s t); [contradiction|]. cbn [andb orb]. rewrite N.add_0_r.
      transitivity (bsum n (fun v => if v =? t then (if S s && negb (S v) then w else 0%N) else 0%N)).
      + apply bsum_ext. intros v _. rewrite orb_false_r. destruct (v =? t), (S s && negb (S v)); reflexivity.
      + rewrite (bsum_single n (fun v => if S s && negb (S v) then w else 0%N) t Ht). reflexivity.
    - cbn [andb orb]. destruct (Nat.eqb_spec u t) as [->|B].
      + cbn [andb]. transitivity (bsum n (fun v => if v =? s then (if S t && negb (S v) then w else 0%N) else 0%N)).
        * apply bsum_ext. intros v _. destruct (v =? s), (S t && negb (S v)); reflexivity.
        * rewrite (bsum_single n (fun v => if S t && negb (S v) then w else 0%N) s Hs). reflexivity.
      + cbn [andb]. rewrite bsum_zero; [reflexivity|]. intros v _. destruct (_ && _); reflexivity. }
  rewrite E, (bsum_single n (fun _ => if S s && negb (S t) then w else 0%N) s Hs), (bsum_single n (fun _ => if S t && negb (S s) then w else 0%N) t Ht).
  destruct (S s), (S t); cbn; lia.
Qed.

(** W' + dec = W + inc on the pair *)
Lemma cutw_wstep n W W' s t dec inc S : s < n -> t < n -> s <> t ->
  (forall a b, a < n -> b < n -> (W' a b + (if on_pair s t a b then dec else 0) = W a b + (if on_pair s t a b then inc else 0))%N) ->
  (cutw n W' S + (if Bool.eqb (S s) (S t) then 0 else dec) = cutw n W S + (if Bool.eqb (S s) (S t) then 0 else inc))%N.
Proof.
  intros Hs Ht N H. rewrite <- (cutw_pair n s t dec S), <- (cutw_pair n s t inc S) by auto. rewrite <- !cutw_add. apply cutw_ext_W. intros u v Hu Hv _. apply H; auto.
Qed.

Lemma cutw_mono n W W' S : (forall a b, a < n -> b < n -> (W a b <= W' a b)%N) -> (cutw n W S <= cutw n W' S)%N.
Proof. intro H. apply bsum_le. intros u Hu. apply bsum_le. intros v Hv. destruct (_ && _); [auto|lia]. Qed.

Lemma bsum_pos m (f : nat -> N) : bsum m f <> 0%N -> exists i, i < m /\ f i <> 0%N.
Proof.
  induction m as [|m IH]; intros H; [exfalso; apply H; reflexivity|]. rewrite bsum_S in H. destruct (N.eq_dec (f m) 0) as [E|E]; [|exists m; auto].
  destruct IH as (i & Hi & Ei); [rewrite E in H; lia|]. exists i. split; [lia|auto].
Qed.

Lemma cutw_pos n W S : cutw n W S <> 0%N -> exists u v, u < n /\ v < n /\ S u = true /\ S v = false /\ W u v <> 0%N.
Proof.
  intro H. apply bsum_pos in H as (u & Hu & H). apply bsum_pos in H as (v & Hv & H). exists u, v. destruct (S u), (S v); cbn [andb negb] in H; try (exfalso; apply H; reflexivity). auto.
Qed.

Lemma cutw_le1 n W S u v : u < n -> v < n -> S u = true -> S v = false -> (W u v <= cutw n W S)%N.
Proof.
  intros Hu Hv A B. unfold cutw. etransitivity; [|apply (bsum_In_le n _ u Hu)]. cbn beta. etransitivity; [|apply (bsum_In_le n _ v Hv)]. cbn beta. rewrite A, B. cbn. lia.
Qed.
Lemma cutw_le2 n W S u v u' v' : u < n -> v < n -> u' < n -> v' < n -> S u = true -> S v = false -> S u' = true -> S v' = false -> (u, v) <> (u', v') -> (W u v + W u' v' <= cutw n W S)%N.
Proof.
  intros Hu Hv Hu' Hv' A B A' B' D. unfold cutw. destruct (Nat.eq_dec u u') as [E|E].
  - subst u'. assert (Dv : v <> v') by congruence. etransitivity; [|apply (bsum_In_le n _ u Hu)]. cbn beta.
    rewrite <- (bsum_single n (fun x => W u x) v Hv), <- (bsum_single n (fun x => W u x) v' Hv'), <- bsum_add. apply bsum_le. intros x _.
    destruct (Nat.eqb_spec x v) as [E1|E1], (Nat.eqb_spec x v') as [E2|E2]; [exfalso; congruence|rewrite E1, A, B; cbn; lia|rewrite E2, A, B'; cbn; lia|lia].
  - transitivity (bsum n (fun x => (if Nat.eqb x u then W u v else 0) + (if Nat.eqb x u' then W u' v' else 0))%N).
    + rewrite bsum_add, (bsum_single n (fun _ => W u v) u Hu), (bsum_single n (fun _ => W u' v') u' Hu'). lia.
    + apply bsum_le. intros x _. destruct (Nat.eqb_spec x u) as [->|].
      * destruct (Nat.eqb_spec u u'); [contradiction|]. rewrite N.add_0_r. etransitivity; [|apply (bsum_In_le n _ v Hv)]. cbn beta. rewrite A, B. cbn. lia.
      * destruct (Nat.eqb_spec x u') as [->|]; [|lia]. rewrite N.add_0_l. etransitivity; [|apply (bsum_In_le n _ v' Hv')]. cbn beta. rewrite A', B'. cbn. lia.
Qed.

(** a cut crossed by a single pair *)
Lemma cutw_one n W S u v : u < n -> v < n -> S u = true -> S v = false ->
  (forall a b, a < n -> b < n -> S a = true -> S b = false -> W a b <> 0%N -> a = u /\ b = v) -> cutw n W S = W u v.
Proof.
  intros Hu Hv A B H. unfold cutw. rewrite <- (bsum_single n (fun x => W x v) u Hu). apply bsum_ext. intros x Hx. destruct (Nat.eqb_spec x u) as [->|E].
  - rewrite <- (bsum_single n (fun y => W u y) v Hv). apply bsum_ext. intros y Hy. destruct (Nat.eqb_spec y v) as [->|E]; [rewrite A, B; reflexivity|].
    rewrite A. destruct (S y) eqn:Sy; [reflexivity|]. cbn. destruct (N.eq_dec (W u y) 0) as [Z|Z]; [exact Z|]. destruct (H u y Hu Hy A Sy Z). contradiction.
  - apply bsum_zero. intros y Hy. destruct (S x) eqn:Sx, (S y) eqn:Sy; try reflexivity. cbn. destruct (N.eq_dec (W x y) 0) as [Z|Z]; [exact Z|]. destruct (H x y Hx Hy Sx Sy Z). contradiction.
Qed.

(** ** bridges *)
Definition bridge (k : nat) (W : wfun) (c : N) (x y : nat) (g : nat -> bool) : Prop :=
  g x = true /\ g y = false /\ W x y = c /\ forall a b, a < k -> b < k -> g a = true -> g b = false -> W a b <> 0%N -> a = x /\ b = y.
Definition bridged (k : nat) (W : wfun) (c : N) : Prop := forall x y, x < k -> y < k -> x <> y -> W x y <> 0%N -> exists g, bridge k W c x y g.

Lemma bridge_cut k W c x y g : x < k -> y < k -> bridge k W c x y g -> cutw k W g = c.
Proof. intros Hx Hy (A & B & E & H). rewrite <- E. apply cutw_one; auto. Qed.

(** in a connected graph whose edges are bridges any two vertices are apart *)
Lemma bridged_apart k W c : symm k W -> loopfree k W -> (forall f, proper k f -> cutw k W f <> 0%N) -> bridged k W c -> apart c k W.
Proof.
  intros SY LF CO B a b Ha Hb N.
  (* one bridge per neighbour of a *)
  assert (L : forall l, (forall y, In y l -> y < k) -> exists gs : list (nat * (nat -> bool)), (forall y g, In (y, g) gs -> y < k /\ bridge k W c a y g) /\ (forall y, In y l -> W a y <> 0%N -> exists g, In (y, g) gs)).
  { induction l as [|y l IH]; intro R; [exists []; split; [intros ? ? []|intros ? []]|]. destruct IH as (gs & A1 & A2); [intros; apply R; right; auto|].
    destruct (N.eq_dec (W a y) 0) as [Z|Z].
    - exists gs. split; [auto|]. intros z [->|I] NZ; [contradiction|auto].
    - assert (Hy : y < k) by (apply R; left; auto). assert (Ny : a <> y) by (intros ->; apply Z; apply LF; auto). destruct (B a y Ha Hy Ny Z) as (g & G). exists ((y, g) :: gs). split.
      + intros z h [E|I]; [injection E as <- <-; auto|apply (A1 z h I)].
      + intros z [->|I] NZ; [exists g; left; auto|]. destruct (A2 z I NZ) as (h & Ih). exists h. right. auto. }
  destruct (L (seq 0 k)) as (gs & A1 & A2); [intros y Hy; apply in_seq in Hy; lia|].
  destruct (existsb (fun p => negb (snd p b)) gs) eqn:X.
  - apply existsb_exists in X as ([y g] & I & E). cbn in E. apply negb_true_iff in E. destruct (A1 y g I) as (Hy & G). exists g. split; [destruct G as (Ga & _); congruence|apply (bridge_cut k W c a y g Ha Hy G)].
  - exfalso. assert (AllB : forall y g, In (y, g) gs -> g b = true).
    { intros y g I. destruct (g b) eqn:E; [auto|]. assert (C : existsb (fun p => negb (snd p b)) gs = true) by (apply existsb_exists; exists (y, g); split; [auto|cbn; rewrite E; auto]). congruence. }
    set (T := fun z => forallb (fun p => snd p z) gs). set (U := fun z => T z && negb (z =? a)).
    assert (TT : forall z, T z = true <-> forall y g, In (y, g) gs -> g z = true).
    { intro z. unfold T. rewrite forallb_forall. split; [intros H y g I; apply (H (y, g) I)|intros H [y g] I; apply (H y g I)]. }
    assert (Ub : U b = true). { unfold U. apply andb_true_iff. split; [apply TT; exact AllB|]. apply negb_true_iff, Nat.eqb_neq. auto. }
    assert (Ua : U a = false). { unfold U. rewrite Nat.eqb_refl. apply andb_false_r. }
    assert (P : proper k U) by (split; [exists b|exists a]; auto).
    destruct (cutw_pos k W U (CO U P)) as (u & v & Hu & Hv & Su & Sv & Z).
    unfold U in Su, Sv. apply andb_true_iff in Su as [Tu Na]. apply negb_true_iff, Nat.eqb_neq in Na. apply andb_false_iff in Sv as [Tv|Ev].
    + assert (exists y g, In (y, g) gs /\ g v = false) as (y & g & I & Gv).
      { clear - Tv. unfold T in Tv. induction gs as [|[y g] gs IH]; [discriminate Tv|]. cbn in Tv. apply andb_false_iff in Tv as [E|E]; [exists y, g; split; [left; auto|auto]|]. destruct (IH E) as (y' & g' & I & E'). exists y', g'. split; [right; auto|auto]. }
      destruct (A1 y g I) as (Hy & (_ & _ & _ & U1)). destruct (U1 u v Hu Hv (proj1 (TT u) Tu y g I) Gv Z) as [E _]. contradiction.
    + apply negb_false_iff, Nat.eqb_eq in Ev. subst v. destruct (A2 u) as (g & I); [apply in_seq; lia|rewrite SY by auto; exact Z|].
      destruct (A1 u g I) as (_ & (_ & Gf & _)). rewrite (proj1 (TT u) Tu u g I) in Gf. discriminate Gf.
Qed.

(** if every edge weighs c and any two vertices are apart, the edges are bridges *)
Lemma apart_bridged k W c : symm k W -> c <> 0%N -> apart c k W -> (forall x y, x < k -> y < k -> x <> y -> W x y <> 0%N -> (c <= W x y)%N) -> bridged k W c.
Proof.
  intros SY C0 AP H x y Hx Hy N Z.
  assert (G : exists g, g x = true /\ g y = false /\ cutw k W g = c).
  { destruct (AP x y Hx Hy N) as (f & D & E). destruct (f x) eqn:Fx, (f y) eqn:Fy; try (exfalso; apply D; reflexivity); [exists f; auto|].
    exists (fun z => negb (f z)). rewrite Fx, Fy, cutw_compl by auto. auto. }
  destruct G as (g & Gx & Gy & E). exists g. split; [auto|]. split; [auto|].
  assert (W1 : W x y = c) by (pose proof (cutw_le1 k W g x y Hx Hy Gx Gy); specialize (H x y Hx Hy N Z); lia). split; [auto|].
  intros a b Ha Hb Ga Gb NZ. assert (N' : a <> b) by congruence.
  destruct (Nat.eq_dec a x) as [Ea|Ea], (Nat.eq_dec b y) as [Eb|Eb]; auto; exfalso;
    (assert (D : (x, y) <> (a, b)) by congruence; pose proof (cutw_le2 k W g x y a b Hx Hy Ha Hb Gx Gy Ga Gb D); specialize (H a b Ha Hb N' NZ); lia).
Qed.

(** ** contracting a connected set of vertices *)
Definition linked (k : nat) (W : wfun) (P : list nat) : Prop :=
  forall (f : nat -> bool) x y, In x P -> In y P -> f x = true -> f y = false -> exists a b, In a P /\ In b P /\ f a = true /\ f b = false /\ W a b <> 0%N.

Lemma bridge_const k W c x y g P : (forall v, In v P -> v < k) -> linked k W P -> bridge k W c x y g -> ~ (In x P /\ In y P) -> forall u v, In u P -> In v P -> g u = g v.
Proof.
  intros R L (Gx & Gy & _ & U) NB u v Hu Hv.
  assert (H : forall u v, In u P -> In v P -> g u = true -> g v = false -> False).
  { intros a b Ha Hb Ga Gb. destruct (L g a b Ha Hb Ga Gb) as (a' & b' & Ia & Ib & Fa & Fb & Z). destruct (U a' b' (R _ Ia) (R _ Ib) Fa Fb Z) as [-> ->]. auto. }
  destruct (g u) eqn:A, (g v) eqn:B; auto; exfalso; eauto.
Qed.

Section Contract.
Context (k k' : nat) (W W' : wfun) (c : N) (P : list nat) (f : nat -> nat).
Context (CL : clustering k f k') (ME : merges k (fun x => In x P) f) (CO : contraction_of k W f k' W').
Context (LF' : loopfree k' W').

Lemma contr_pos p q : p < k' -> q < k' -> p <> q -> W' p q <> 0%N -> exists u v, u < k /\ v < k /\ f u = p /\ f v = q /\ W u v <> 0%N.
Proof.
  intros Hp Hq N Z. rewrite (CO p q Hp Hq N) in Z.
  apply bsum_pos in Z as (u & Hu & Z). apply bsum_pos in Z as (v & Hv & Z). destruct (Nat.eqb_spec (f u) p) as [A|]; [|exfalso; apply Z; reflexivity]. destruct (Nat.eqb_spec (f v) q) as [B|]; [|exfalso; apply Z; reflexivity]. exists u, v. auto.
Qed.

(** a function constant on P, seen on the clusters *)
Definition lift (g : nat -> bool) (p : nat) : bool := existsb (fun u => (f u =? p) && g u) (seq 0 k).
Lemma lift_ok g : (forall u v, In u P -> In v P -> g u = g v) -> forall u, u < k -> lift g (f u) = g u.
Proof.
  intros H u Hu. unfold lift. destruct (g u) eqn:G.
  - apply existsb_exists. exists u. rewrite Nat.eqb_refl, G. split; [apply in_seq; lia|auto].
  - destruct (existsb _ _) eqn:E; [|auto]. apply existsb_exists in E as (v & I & E). apply in_seq in I. apply andb_true_iff in E as [E Gv]. apply Nat.eqb_eq in E.
    apply ME in E as [->|[A B]]; [congruence| |lia|auto]. rewrite (H v u A B) in Gv. congruence.
Qed.

Lemma bridged_contract : (forall v, In v P -> v < k) -> linked k W P -> bridged k W c -> bridged k' W' c.
Proof.
  intros R L B p q Hp Hq N Z. destruct (contr_pos p q Hp Hq N Z) as (x & y & Hx & Hy & Ex & Ey & Z0).
  assert (Nxy : x <> y) by congruence. destruct (B x y Hx Hy Nxy Z0) as (g & G). pose proof G as (Gx & Gy & E & U).
  assert (NB : ~ (In x P /\ In y P)). { intro I. apply N. rewrite <- Ex, <- Ey. apply ME; auto. }
  pose proof (lift_ok g (bridge_const k W c x y g P R L G NB)) as LO.
  exists (lift g). split; [rewrite <- Ex, LO; auto|]. split; [rewrite <- Ey, LO; auto|]. split.
  - rewrite (CO p q Hp Hq N). rewrite <- E. rewrite <- (bsum_single k (fun u => W u y) x Hx). apply bsum_ext. intros u Hu. destruct (Nat.eqb_spec u x) as [->|Nu].
    + rewrite <- (bsum_single k (fun v => W x v) y Hy). apply bsum_ext. intros v Hv. destruct (Nat.eqb_spec v y) as [->|Nv]; [rewrite Ex, Ey, !Nat.eqb_refl; reflexivity|].
      destruct (Nat.eqb_spec (f x) p); [|reflexivity]. destruct (Nat.eqb_spec (f v) q) as [Fv|]; [|reflexivity]. cbn.
      destruct (N.eq_dec (W x v) 0) as [Q|Q]; [exact Q|]. exfalso. apply Nv. apply (U x v Hx Hv Gx); [|exact Q]. rewrite <- (LO v Hv), Fv, <- Ey, LO; auto.
    + apply bsum_zero. intros v Hv. destruct (Nat.eqb_spec (f u) p) as [Fu|]; [|reflexivity]. destruct (Nat.eqb_spec (f v) q) as [Fv|]; [|reflexivity]. cbn.
      destruct (N.eq_dec (W u v) 0) as [Q|Q]; [exact Q|]. exfalso. apply Nu. apply (U u v Hu Hv); [rewrite <- (LO u Hu), Fu, <- Ex, LO; auto|rewrite <- (LO v Hv), Fv, <- Ey, LO; auto|exact Q].
  - intros a b Ha Hb La Lb Zab. assert (Nab : a <> b) by congruence. destruct (contr_pos a b Ha Hb Nab Zab) as (u & v & Hu & Hv & Eu & Ev & Q). subst a b. rewrite (LO u Hu) in La. rewrite (LO v Hv) in Lb.
    destruct (U u v Hu Hv La Lb Q) as [-> ->]. auto.
Qed.
End Contract.
