(* P_Dynamic3.v - findPath in a tree returns the vertices of a path between s and t. *)
From Verif Require Import SpecCut P_Cut SpecDyn M_Dynamic P_Mutable P_MutableIO P_Dynamic.

Lemma in_wt rows v t w r : In (t, w, r) (nth v rows []) -> (w <= wt (adj rows) v t)%N.
Proof.
  intro H. unfold wt. rewrite adj_nth. change w with (snd (t, w)). apply sumN_In_le. apply filter_In. cbn [fst]. rewrite Nat.eqb_refl. split; [|auto].
  apply in_map_iff. exists (t, w, r). auto.
Qed.
Lemma wt_in rows v t : wt (adj rows) v t <> 0%N -> exists w r, In (t, w, r) (nth v rows []).
Proof.
  unfold wt. rewrite adj_nth. intro H. destruct (filter _ _) as [|[t' w'] l] eqn:E; [exfalso; apply H; reflexivity|].
  pose proof (in_eq (t', w') l) as I. rewrite <- E in I.
  apply filter_In in I as [I X]. cbn in X. apply Nat.eqb_eq in X. subst t'. apply in_map_iff in I as ([[a b] r] & E' & I). cbn in E'. injection E' as -> ->. exists w', r. auto.
Qed.

Lemma linked_one k W x : linked k W [x].
Proof. intros f a b [<-|[]] [<-|[]] A B. congruence. Qed.
Lemma linked_add k W P x y : W x y <> 0%N -> W y x <> 0%N -> In x P -> linked k W P -> linked k W (set_add y P).
Proof.
  intros Z Z' Hx L. unfold set_add. destruct (existsb (Nat.eqb y) P); [exact L|]. intros f a b Ha Hb Fa Fb.
  assert (G : forall u v, In u P -> In v P -> f u = true -> f v = false -> exists a b, In a (y :: P) /\ In b (y :: P) /\ f a = true /\ f b = false /\ W a b <> 0%N).
  { intros u v Hu Hv Fu Fv. destruct (L f u v Hu Hv Fu Fv) as (a' & b' & A & B & X). exists a', b'. split; [right; auto|]. split; [right; auto|auto]. }
  destruct Ha as [<-|Ha], Hb as [<-|Hb]; [congruence| | |eauto].
  - destruct (f x) eqn:Fx; [eauto|]. exists y, x. split; [left; auto|]. split; [right; auto|auto].
  - destruct (f x) eqn:Fx; [|eauto]. exists x, y. split; [right; auto|]. split; [left; auto|auto].
Qed.
Lemma set_add_in y P x : In x (set_add y P) <-> x = y \/ In x P.
Proof.
  unfold set_add. destruct (existsb (Nat.eqb y) P) eqn:E; [|cbn; intuition]. split; [auto|]. intros [->|H]; [|auto]. apply existsb_exists in E as (z & I & E). apply Nat.eqb_eq in E. subst z. auto.
Qed.
Lemma set_add_nodup y P : NoDup P -> NoDup (set_add y P).
Proof.
  intro H. unfold set_add. destruct (existsb (Nat.eqb y) P) eqn:E; [auto|]. constructor; [|auto]. intro I. assert (existsb (Nat.eqb y) P = true) by (apply existsb_exists; exists y; rewrite Nat.eqb_refl; auto). congruence.
Qed.

Section Tree.
Context (C : mg) (c : N) (s t : nat).
Let k := m_n C.
Let W := wt (adj (m_rows C)).
Hypothesis MV : mvalid C.
Hypothesis C0 : c <> 0%N.
Hypothesis HW : forall v x w r, In (x, w, r) (nth v (m_rows C) []) -> w = c.
Hypothesis CONN : forall f, proper k f -> cutw k W f <> 0%N.
Hypothesis Hs : s < k.
Hypothesis Ht : t < k.
Hypothesis ST : s <> t.

Definition good (P : list nat) : Prop := NoDup P /\ (forall v, In v P -> v < k) /\ linked k W P.

Lemma half_ok v x w r : In (x, w, r) (nth v (m_rows C) []) -> v < k /\ x < k /\ W v x <> 0%N /\ W x v <> 0%N.
Proof.
  intro I. assert (Hv : v < k). { destruct (Nat.lt_ge_cases v k) as [|L]; [auto|]. rewrite nth_overflow in I by exact L. destruct I. }
  apply In_nth_error in I as (e & E). destruct MV as [V _]. destruct (V v e x w r E) as (Hx & _ & E2). apply nth_error_In in E, E2. pose proof (HW _ _ _ _ E) as ->.
  split; [auto|]. split; [exact Hx|]. pose proof (in_wt _ _ _ _ _ E). pose proof (in_wt _ _ _ _ _ E2). unfold W. split; lia.
Qed.

(* no bridge of P is crossed when both ends of the path are on one side *)
Definition tight (P : list nat) : Prop := forall u v g, bridge k W c u v g -> g s = g t -> forall a b, In a P -> In b P -> g a = g b.

Inductive chain : nat -> nat -> list nat -> Prop :=
| c_one r : chain r r [r]
| c_cons x y r l : x < k -> y < k -> W x y <> 0%N -> W y x <> 0%N -> ~ In x l -> chain y r l -> chain x r (x :: l).

Lemma chain_ends x r l : chain x r l -> In x l /\ In r l.
Proof. induction 1; cbn; tauto. Qed.

Lemma bridge_step u v g x y : bridge k W c u v g -> x < k -> y < k -> W x y <> 0%N -> W y x <> 0%N -> g x <> g y -> (x = u /\ y = v) \/ (x = v /\ y = u).
Proof.
  intros (_ & _ & _ & U) Hx Hy A B D. destruct (g x) eqn:Gx, (g y) eqn:Gy; try congruence; [left; auto|right]. destruct (U y x Hy Hx Gy Gx B). auto.
Qed.

Lemma chain_const u v g x r l : bridge k W c u v g -> chain x r l -> (forall a, In a l -> g a = g x) \/ (g x <> g r /\ In u l /\ In v l).
Proof.
  intros B H. induction H as [r|x y r l Hx Hy Z1 Z2 NI H IH]; [left; intros a [<-|[]]; auto|]. destruct (chain_ends _ _ _ H) as [Iy Ir].
  destruct (bool_dec (g x) (g y)) as [E|D].
  - destruct IH as [K|(K & Iu & Iv)]; [left; intros a [<-|Ia]; [auto|rewrite E; auto]|right; rewrite E; cbn; auto].
  - destruct (bridge_step u v g x y B Hx Hy Z1 Z2 D) as [[E1 E2]|[E1 E2]]; rewrite <- E1, <- E2 in *;
      (destruct IH as [K|(_ & Iu & Iv)]; [right; rewrite (K r Ir); cbn; auto|contradiction]).
Qed.

(* vis: the vertices in the order of the queue *)
Record J (vis : list nat) (p : parents) : Prop := {
  j_len : length p = k;
  j_nd : NoDup vis;
  j_in : forall v, In v vis <-> nth v p None <> None;
  j_s : nth s p None = Some (s, s, true);
  j_t : nth t p None = Some (t, t, true);
  j_e : forall v x r b, nth v p None = Some (x, r, b) -> b = true /\ (r = s \/ r = t) /\
    (v = r \/ exists i j, nth_error vis i = Some x /\ nth_error vis j = Some v /\ i < j /\ root_of p x = Some r /\ W v x <> 0%N /\ W x v <> 0%N) }.

Lemma j_lt vis p v : J vis p -> In v vis -> v < k.
Proof. intros H I. apply (j_in _ _ H) in I. destruct (Nat.lt_ge_cases v k) as [|L]; [auto|]. rewrite nth_overflow in I by (rewrite (j_len _ _ H); exact L). congruence. Qed.
Lemma j_vis vis p : J vis p -> length vis <= k.
Proof. intro H. rewrite <- (seq_length k 0). apply NoDup_incl_length; [apply (j_nd _ _ H)|]. intros v I. apply in_seq. pose proof (j_lt _ _ _ H I). lia. Qed.
Lemma j_flag vis p v : J vis p -> flag_of p v = true.
Proof. intro H. unfold flag_of. destruct (nth v p None) as [[[x r] b]|] eqn:E; [|auto]. apply (j_e _ _ H _ _ _ _ E). Qed.
Lemma j_root vis p v r : J vis p -> root_of p v = Some r -> In v vis /\ (r = s \/ r = t).
Proof. intros H E. unfold root_of in E. destruct (nth v p None) as [[[x r0] b]|] eqn:N; [|discriminate E]. injection E as <-. split; [apply (j_in _ _ H); congruence|apply (j_e _ _ H _ _ _ _ N)]. Qed.

Lemma climb_ok vis p r : J vis p -> forall fuel x i acc, nth_error vis i = Some x -> i <= fuel -> root_of p x = Some r -> In x acc -> good acc ->
  exists acc', climb fuel p r x true acc = Some acc' /\ incl acc acc' /\ In r acc' /\ good acc'.
Proof.
  intro H. induction fuel as [|fuel IH]; intros x i acc Hi Li R Ix G; cbn [climb]; (destruct (Nat.eqb_spec x r) as [->|Nx]; [exists acc; split; [auto|split; [apply incl_refl|auto]]|]).
  - exfalso. assert (i = 0) as -> by lia. unfold root_of in R. destruct (nth x p None) as [[[y r0] b]|] eqn:E; [|discriminate R]. injection R as ->.
    destruct (j_e _ _ H _ _ _ _ E) as (_ & _ & [X|(i' & j & A & B & L & _)]); [auto|].
    assert (j = 0); [|lia]. apply (proj1 (NoDup_nth_error vis) (j_nd _ _ H)); [apply nth_error_Some; congruence|congruence].
  - unfold root_of in R. destruct (nth x p None) as [[[y r0] b]|] eqn:E; [|discriminate R]. injection R as ->.
    destruct (j_e _ _ H _ _ _ _ E) as (_ & _ & [X|(i' & j & A & B & L & Ry & Z1 & Z2)]); [contradiction|].
    assert (j = i). { apply (proj1 (NoDup_nth_error vis) (j_nd _ _ H)); [apply nth_error_Some; congruence|congruence]. }
    subst j. unfold par_of. rewrite E. rewrite (j_flag _ _ y H). cbn [orb].
    assert (Iy : In y vis) by (apply nth_error_In in A; auto). destruct G as (G1 & G2 & G3).
    destruct (IH y i' (set_add y acc) A ltac:(lia) Ry) as (acc' & E' & I' & R' & G').
    + apply set_add_in. auto.
    + split; [apply set_add_nodup; auto|]. split; [|apply (linked_add k W acc x y Z1 Z2 Ix G3)]. intros v Hv. apply set_add_in in Hv as [->|Hv]; [apply (j_lt _ _ _ H Iy)|auto].
    + exists acc'. split; [exact E'|]. split; [|auto]. intros v Hv. apply I'. apply set_add_in. auto.
Qed.

Lemma climb_chain vis p r : J vis p -> forall fuel x i acc acc', nth_error vis i = Some x -> root_of p x = Some r -> In x acc -> climb fuel p r x true acc = Some acc' ->
  exists l, chain x r l /\ (forall v, In v l -> root_of p v = Some r /\ exists j, nth_error vis j = Some v /\ j <= i) /\ forall v, In v acc' -> In v acc \/ In v l.
Proof.
  intro H. induction fuel as [|fuel IH]; intros x i acc acc' Hi R Ix E0; cbn [climb] in E0; (destruct (Nat.eqb_spec x r) as [->|Nx]; [injection E0 as <-; exists [r]; split; [constructor|split; [intros v [<-|[]]; split; [auto|exists i; auto]|auto]]|]).
  - discriminate E0.
  - pose proof R as R0. unfold root_of in R. destruct (nth x p None) as [[[y r0] b]|] eqn:E; [|discriminate R]. injection R as ->.
    destruct (j_e _ _ H _ _ _ _ E) as (_ & _ & [X|(i' & j & A & B & L & Ry & Z1 & Z2)]); [contradiction|].
    assert (j = i). { apply (proj1 (NoDup_nth_error vis) (j_nd _ _ H)); [apply nth_error_Some; congruence|congruence]. }
    subst j. unfold par_of in E0. rewrite E in E0. rewrite (j_flag _ _ y H) in E0. cbn [orb] in E0.
    destruct (IH y i' _ acc' A Ry ltac:(apply set_add_in; auto) E0) as (l & CH & AL & SU). exists (x :: l). split; [|split].
    + apply c_cons with (y := y); auto.
      * apply (j_lt _ _ _ H). apply nth_error_In in Hi. auto.
      * apply (j_lt _ _ _ H). apply nth_error_In in A. auto.
      * intro I. destruct (AL x I) as (_ & j' & Ej & Lj). assert (j' = i); [|lia]. apply (proj1 (NoDup_nth_error vis) (j_nd _ _ H)); [apply nth_error_Some; congruence|congruence].
    + intros v [<-|I]; [split; [auto|exists i; auto]|]. destruct (AL v I) as (Q & j' & Ej & Lj). split; [auto|exists j'; split; [auto|lia]].
    + intros v I. destruct (SU v I) as [Q|Q]; [|cbn; auto]. apply set_add_in in Q as [->|Q]; [right; right; apply (chain_ends _ _ _ CH)|auto].
Qed.

Lemma tight_join p x y la lb P : chain x s la -> chain y t lb -> (forall v, In v la -> root_of p v = Some s) -> (forall v, In v lb -> root_of p v = Some t) ->
  x < k -> y < k -> W x y <> 0%N -> W y x <> 0%N -> (forall v, In v P -> In v la \/ In v lb) -> tight P.
Proof.
  intros CA CB RA RB Hx Hy Z1 Z2 SU u v g B ES. assert (DJ : forall z, In z la -> In z lb -> False) by (intros z A1 B1; specialize (RA z A1); specialize (RB z B1); congruence).
  destruct (chain_ends _ _ _ CA) as [Ix Is]. destruct (chain_ends _ _ _ CB) as [Iy It].
  assert (G : forall a, In a la \/ In a lb -> g a = g s).
  { destruct (chain_const u v g x s la B CA) as [KA|(KA & Iu & Iv)], (chain_const u v g y t lb B CB) as [KB|(KB & Ju & Jv)].
    - pose proof (KA s Is). pose proof (KB t It). intros a [I|I]; [rewrite (KA a I)|rewrite (KB a I)]; congruence.
    - exfalso. pose proof (KA s Is). assert (D : g x <> g y) by congruence. destruct (bridge_step u v g x y B Hx Hy Z1 Z2 D) as [[-> ->]|[-> ->]]; eauto.
    - exfalso. pose proof (KB t It). assert (D : g x <> g y) by congruence. destruct (bridge_step u v g x y B Hx Hy Z1 Z2 D) as [[-> ->]|[-> ->]]; eauto.
    - exfalso. eauto. }
  intros a b Ia Ib. rewrite (G a), (G b); auto.
Qed.

Lemma join_ok vis p n tgt w r root root' : J vis p -> In (tgt, w, r) (nth n (m_rows C) []) -> root_of p n = Some root -> root_of p tgt = Some root' -> root' <> root ->
  exists P, join_path p s t n tgt = Some P /\ good P /\ In s P /\ In t P /\ tight P.
Proof.
  intros H I Rn Rt D. destruct (half_ok _ _ _ _ I) as (Hn & Htgt & Z1 & Z2). destruct (j_root _ _ _ _ H Rn) as (In_ & Cn). destruct (j_root _ _ _ _ H Rt) as (It & Ct).
  assert (Lp : length p = k) by apply (j_len _ _ H). pose proof (j_vis _ _ H) as LV.
  assert (G0 : good (set_add n [tgt])).
  { split; [apply set_add_nodup; constructor; [intros []|constructor]|]. split; [|apply (linked_add k W [tgt] tgt n Z2 Z1); [left; auto|apply linked_one]].
    intros v Hv. apply set_add_in in Hv as [->|[<-|[]]]; auto. }
  assert (I1 : In n (set_add n [tgt])) by (apply set_add_in; auto). assert (I2 : In tgt (set_add n [tgt])) by (apply set_add_in; right; left; auto).
  unfold join_path. rewrite Rn, !(j_flag _ _ _ H). apply In_nth_error in In_ as (i & Ei). apply In_nth_error in It as (j & Ej).
  assert (Li : i < length vis) by (apply nth_error_Some; congruence). assert (Lj : j < length vis) by (apply nth_error_Some; congruence).
  destruct (Nat.eqb_spec root s) as [->|Ns].
  - assert (root' = t) as -> by (destruct Ct; congruence).
    destruct (climb_ok vis p s H (length p) n i _ Ei ltac:(lia) Rn I1 G0) as (acc & E1 & S1 & M1 & G1). rewrite E1.
    destruct (climb_ok vis p t H (length p) tgt j _ Ej ltac:(lia) Rt (S1 _ I2) G1) as (acc' & E2 & S2 & M2 & G2). exists acc'. split; [auto|]. split; [auto|]. split; [auto|]. split; [auto|].
    destruct (climb_chain vis p s H _ n i _ _ Ei Rn I1 E1) as (la & CA & RA & SA). destruct (climb_chain vis p t H _ tgt j _ _ Ej Rt (S1 _ I2) E2) as (lb & CB & RB & SB).
    apply (tight_join p n tgt la lb); auto; [intros v Iv; apply RA; auto|intros v Iv; apply RB; auto|]. intros v Iv. apply SB in Iv as [Iv|Iv]; [|auto]. apply SA in Iv as [Iv|Iv]; [|auto].
    apply set_add_in in Iv as [->|[<-|[]]]; [left; apply (chain_ends _ _ _ CA)|right; apply (chain_ends _ _ _ CB)].
  - assert (root = t) as -> by (destruct Cn; congruence). assert (root' = s) as -> by (destruct Ct; congruence).
    destruct (climb_ok vis p s H (length p) tgt j _ Ej ltac:(lia) Rt I2 G0) as (acc & E1 & S1 & M1 & G1). rewrite E1.
    destruct (climb_ok vis p t H (length p) n i _ Ei ltac:(lia) Rn (S1 _ I1) G1) as (acc' & E2 & S2 & M2 & G2). exists acc'. split; [auto|]. split; [auto|]. split; [auto|]. split; [auto|].
    destruct (climb_chain vis p s H _ tgt j _ _ Ej Rt I2 E1) as (la & CA & RA & SA). destruct (climb_chain vis p t H _ n i _ _ Ei Rn (S1 _ I1) E2) as (lb & CB & RB & SB).
    apply (tight_join p tgt n la lb); auto; [intros v Iv; apply RA; auto|intros v Iv; apply RB; auto|]. intros v Iv. apply SB in Iv as [Iv|Iv]; [|auto]. apply SA in Iv as [Iv|Iv]; [|auto].
    apply set_add_in in Iv as [->|[<-|[]]]; [right; apply (chain_ends _ _ _ CB)|left; apply (chain_ends _ _ _ CA)].
Qed.

Definition extends (p p' : parents) : Prop := forall v e, nth v p None = Some e -> nth v p' None = Some e.
Lemma ext_root p p' v r : extends p p' -> root_of p v = Some r -> root_of p' v = Some r.
Proof. intros X E. unfold root_of in *. destruct (nth v p None) as [[[x r0] b]|] eqn:N; [|discriminate E]. rewrite (X _ _ N). exact E. Qed.

Lemma scan_ok n root : forall row vis p new, J vis p -> (forall h, In h row -> In h (nth n (m_rows C) [])) -> root_of p n = Some root ->
  match scan_edges row c s t n root p new with
  | inl res => exists P, res = Some P /\ good P /\ In s P /\ In t P /\ tight P
  | inr (p', new') => exists ext, new' = new ++ ext /\ J (vis ++ ext) p' /\ extends p p' /\ forall h, In h row -> root_of p' (fst (fst h)) = Some root
  end.
Proof.
  induction row as [|[[x w] r] row IH]; intros vis p new H IR Rn; cbn [scan_edges].
  - exists []. rewrite !app_nil_r. split; [auto|]. split; [auto|]. split; [intros v e E; exact E|intros h []].
  - assert (Ix : In (x, w, r) (nth n (m_rows C) [])) by (apply IR; left; auto). destruct (half_ok _ _ _ _ Ix) as (Hn & Hx & Z1 & Z2).
    destruct (root_of p x) as [rx|] eqn:Rx.
    + destruct (Nat.eqb_spec rx root) as [->|D]; [|apply (join_ok vis p n x w r root rx H Ix Rn Rx D)].
      specialize (IH vis p new H (fun h Hh => IR h (or_intror Hh)) Rn). destruct (scan_edges row c s t n root p new) as [res|[p' new']]; [exact IH|].
      destruct IH as (ext & A & B & X & D). exists ext. split; [auto|]. split; [auto|]. split; [auto|]. intros h [<-|Hh]; [cbn; apply (ext_root p p' x root X Rx)|auto].
    + assert (Nx : nth x p None = None). { unfold root_of in Rx. destruct (nth x p None) as [[[a b] d]|]; [discriminate Rx|auto]. }
      rewrite (HW _ _ _ _ Ix), N.eqb_refl. set (p1 := upd p x (Some (n, root, true))).
      assert (P1 : forall v, nth v p1 None = if v =? x then Some (n, root, true) else nth v p None).
      { intro v. unfold p1. rewrite nth_upd, (j_len _ _ H). destruct (Nat.ltb_spec x k); [|lia]. rewrite andb_true_r. reflexivity. }
      assert (X1 : extends p p1). { intros v e E. rewrite P1. destruct (Nat.eqb_spec v x) as [->|]; [congruence|auto]. }
      destruct (j_root _ _ _ _ H Rn) as (Inv & Cn).
      assert (NIx : ~ In x vis) by (intro I; apply (j_in _ _ H) in I; congruence).
      assert (H1 : J (vis ++ [x]) p1).
      { constructor.
        - unfold p1. rewrite upd_length. apply (j_len _ _ H).
        - apply (Permutation_NoDup (Permutation_cons_append vis x)). constructor; [exact NIx|apply (j_nd _ _ H)].
        - intro v. rewrite P1, in_app_iff. destruct (Nat.eqb_spec v x) as [->|Nv]; [split; [discriminate|intros _; right; left; auto]|].
          rewrite <- (j_in _ _ H). split; [intros [A|[B|[]]]; [auto|congruence]|auto].
        - apply X1. apply (j_s _ _ H).
        - apply X1. apply (j_t _ _ H).
        - intros v y r1 b. rewrite P1. destruct (Nat.eqb_spec v x) as [->|Nv].
          + intro E. injection E as <- <- <-. split; [auto|]. split; [auto|]. right. apply In_nth_error in Inv as (i & Ei). assert (Li : i < length vis) by (apply nth_error_Some; congruence).
            exists i, (length vis). rewrite nth_error_app1 by auto. rewrite nth_error_app2, Nat.sub_diag by lia. split; [auto|]. split; [reflexivity|]. split; [auto|]. split; [apply (ext_root p p1 n root X1 Rn)|auto].
          + intro E. destruct (j_e _ _ H _ _ _ _ E) as (A & B & [D|(i & j & E1 & E2 & L & R1 & Y)]); (split; [auto|]); (split; [auto|]); [left; auto|right].
            exists i, j. assert (Lj : j < length vis) by (apply nth_error_Some; congruence). rewrite !nth_error_app1 by lia. split; [auto|]. split; [auto|]. split; [auto|]. split; [apply (ext_root p p1 _ _ X1 R1)|auto]. }
      specialize (IH (vis ++ [x]) p1 (new ++ [x]) H1 (fun h Hh => IR h (or_intror Hh)) (ext_root p p1 n root X1 Rn)). destruct (scan_edges row c s t n root p1 (new ++ [x])) as [res|[p' new']]; [exact IH|].
      destruct IH as (ext & A & B & X & D). exists (x :: ext). split; [rewrite A, <- app_assoc; reflexivity|]. split; [rewrite <- app_assoc in B; exact B|]. split; [intros v e E; apply X, X1, E|].
      intros h [<-|Hh]; [cbn|auto]. apply (ext_root p1 p' x root X). unfold root_of. rewrite P1, Nat.eqb_refl. reflexivity.
Qed.

Definition closed (vis : list nat) (d : nat) (p : parents) : Prop :=
  forall i v, i < d -> nth_error vis i = Some v -> forall h, In h (nth v (m_rows C) []) -> root_of p (fst (fst h)) = root_of p v.

Lemma search_ok : forall fuel vis d p, J vis p -> closed vis d p -> d <= length vis -> S k <= fuel + d ->
  exists P, search fuel C c s t p (skipn d vis) = Some P /\ good P /\ In s P /\ In t P /\ tight P.
Proof.
  induction fuel as [|fuel IH]; intros vis d p H CL Ld F.
  { exfalso. pose proof (j_vis _ _ H). lia. }
  cbn [search]. destruct (skipn d vis) as [|n q] eqn:Q.
  - exfalso. assert (d = length vis) as -> by (pose proof (skipn_length d vis) as L; rewrite Q in L; cbn in L; lia).
    set (f := fun v => match root_of p v with Some r => r =? s | None => false end).
    assert (P : proper k f).
    { split; [exists s|exists t]; (split; [auto|]); unfold f, root_of; [rewrite (j_s _ _ H); apply Nat.eqb_refl|rewrite (j_t _ _ H); apply Nat.eqb_neq; auto]. }
    destruct (cutw_pos k W f (CONN f P)) as (u & v & Hu & Hv & Fu & Fv & Z). apply wt_in in Z as (w & r & I).
    unfold f in Fu. destruct (root_of p u) as [ru|] eqn:Ru; [|discriminate Fu]. destruct (j_root _ _ _ _ H Ru) as (Iu & _). apply In_nth_error in Iu as (i & Ei).
    assert (Li : i < length vis) by (apply nth_error_Some; congruence). pose proof (CL i u Li Ei _ I) as E. cbn in E. unfold f in Fv. rewrite E, Ru in Fv. congruence.
  - assert (Ed : nth_error vis d = Some n). { rewrite <- (firstn_skipn d vis), nth_error_app2 by (rewrite firstn_length; lia). rewrite firstn_length, Nat.min_l, Nat.sub_diag, Q by lia. reflexivity. }
    assert (Ld' : d < length vis) by (apply nth_error_Some; congruence).
    assert (Iv : In n vis) by (apply nth_error_In in Ed; auto). pose proof (proj1 (j_in _ _ H n) Iv) as NN.
    destruct (root_of p n) as [root|] eqn:Rn; [|exfalso; unfold root_of in Rn; destruct (nth n p None) as [[[a b] e]|]; [discriminate Rn|auto]].
    pose proof (scan_ok n root (nth n (m_rows C) []) vis p [] H (fun h Hh => Hh) Rn) as SC.
    destruct (scan_edges (nth n (m_rows C) []) c s t n root p []) as [res|[p' new']]; [exact SC|]. destruct SC as (ext & A & B & X & D). cbn in A. subst new'.
    assert (Q' : q ++ ext = skipn (S d) (vis ++ ext)).
    { rewrite skipn_app. replace (S d - length vis) with 0 by lia. cbn [skipn]. f_equal. clear - Q. revert vis Q. induction d as [|d IHd]; intros [|a l] Q; cbn in *; try discriminate Q; [congruence|apply IHd; exact Q]. }
    rewrite Q'. apply IH; [exact B| |rewrite app_length; lia|lia].
    intros i v Li Ei h Ih. rewrite nth_error_app1 in Ei by lia. destruct (Nat.eq_dec i d) as [->|Ni].
    + assert (v = n) as -> by congruence. rewrite (D h Ih). symmetry. apply (ext_root p p' n root X Rn).
    + pose proof (CL i v ltac:(lia) Ei h Ih) as E. assert (Iv' : In v vis) by (apply nth_error_In in Ei; auto). apply (j_in _ _ H) in Iv'. destruct (root_of p v) as [rv|] eqn:Rv.
      * rewrite (ext_root _ _ _ _ X Rv). apply (ext_root _ _ _ _ X). exact E.
      * exfalso. unfold root_of in Rv. destruct (nth v p None) as [[[a b] e]|]; [discriminate Rv|auto].
Qed.

Theorem find_path_tree : exists P, find_path C s t c = Some P /\ good P /\ In s P /\ In t P /\ tight P.
Proof.
  unfold find_path. set (p := upd (upd (repeat None (m_n C)) s (Some (s, s, true))) t (Some (t, t, true))).
  assert (E : forall v, nth v p None = if v =? t then Some (t, t, true) else if v =? s then Some (s, s, true) else None).
  { intro v. unfold p. rewrite !nth_upd, upd_length, repeat_length. fold k. destruct (Nat.ltb_spec t k); [|lia]. destruct (Nat.ltb_spec s k); [|lia]. rewrite !andb_true_r.
    destruct (v =? t); [auto|]. destruct (v =? s); [auto|]. rewrite nth_repeat. reflexivity. }
  change [s; t] with (skipn 0 [s; t]). apply search_ok; [|intros i v L; lia|cbn; lia|fold k; lia]. constructor.
  - unfold p. rewrite !upd_length, repeat_length. reflexivity.
  - constructor; [intros [A|[]]; auto|constructor; [intros []|constructor]].
  - intro v. rewrite E. cbn [In]. destruct (Nat.eqb_spec v t) as [->|]; [split; [discriminate|auto]|]. destruct (Nat.eqb_spec v s) as [->|]; [split; [discriminate|auto]|]. split; [intros [A|[A|[]]]; congruence|congruence].
  - rewrite E, Nat.eqb_refl. destruct (Nat.eqb_spec s t); [contradiction|auto].
  - rewrite E, Nat.eqb_refl. auto.
  - intros v x r b. rewrite E. destruct (Nat.eqb_spec v t) as [->|]; [intro X; injection X as <- <- <-; auto|]. destruct (Nat.eqb_spec v s) as [->|]; [intro X; injection X as <- <- <-; auto|discriminate].
Qed.
End Tree.
