(* P_Artic3.v - the sides of a vertex in the search tree, and the contraction of the side without terminals. *)
From Verif Require Import SpecRel SpecArtic P_UnionFind P_Cut P_Mutable P_MutableIO P_PRTests P_Multi P_Kernel P_Kernel3.
From Verif Require Export P_Artic2.

Lemma joined_trans E ok a b c : joined E ok a b -> joined E ok b c -> joined E ok a c.
Proof. intros A B. induction A as [u Hu|u v w Hu Huv A IH]; [auto|]. apply (joined_step E ok u v c); auto. Qed.
Lemma joined_snoc E ok a b c : joined E ok a b -> E b c -> ok c -> joined E ok a c.
Proof.
  intros A H K. apply (joined_trans E ok a b c); auto. apply (joined_step E ok b c c); [|auto|constructor; auto].
  clear - A. induction A; auto.
Qed.
Lemma joined_sym (E : nat -> nat -> Prop) ok a b : (forall x y, E x y -> E y x) -> joined E ok a b -> joined E ok b a.
Proof. intros S A. induction A as [u Hu|u v w Hu Huv A IH]; [constructor; auto|]. apply (joined_snoc E ok w v u); auto. Qed.
Lemma joined_ok E ok a b : joined E ok a b -> ok a /\ ok b.
Proof. induction 1 as [u Hu|u v w Hu Huv A IH]; [auto|]. split; [auto|apply IH]. Qed.
Lemma joined_mono E (ok ok' : nat -> Prop) a b : (forall x, ok x -> ok' x) -> joined E ok a b -> joined E ok' a b.
Proof. intros M A. induction A as [u Hu|u v w Hu Huv A IH]; [constructor; auto|]. apply (joined_step E ok' u v w); auto. Qed.

Section Tree.
Context (R : list (list half)).
Let n := length R.
Notation nb := (ap_nbrs R).
Notation E := (fun a b => In b (nb a)).
Hypothesis NR : forall v t, In t (nb v) -> v < n /\ t < n /\ t <> v.
Hypothesis NS : forall v t, In t (nb v) -> In v (nb t).
Context (s : apst) (I : Inv R s []) (ALL : forall y, y < n -> a_vis s y = true).
Notation par := (a_par s).
Notation disc := (a_disc s).
Notation low := (a_low s).

Lemma par_facts x : x < n -> exists p, par x = Some p /\ p < n /\ (p = x \/ (In x (nb p) /\ (disc p < disc x)%N)).
Proof. intro Hx. destruct (i_par _ _ _ I x (ALL x Hx)) as (p & A & B & C). exists p. split; [auto|]. split; [apply (i_rng _ _ _ I); auto|auto]. Qed.

Lemma anc_disc a x : x < n -> anc par a x -> a < n /\ (disc a <= disc x)%N.
Proof.
  intros Hx A. induction A as [|x p Ep N A IH]; [split; [auto|lia]|]. destruct (par_facts x Hx) as (q & Eq & Hq & Q). rewrite Ep in Eq. injection Eq as <-.
  destruct (IH Hq) as [X Y]. destruct Q as [Q|[_ Q]]; [congruence|]. split; [auto|lia].
Qed.
Lemma anc_lt a x : x < n -> anc par a x -> a <> x -> (disc a < disc x)%N.
Proof.
  intros Hx A N. destruct (anc_disc a x Hx A) as [Ha L]. destruct (N.eq_dec (disc a) (disc x)) as [Q|]; [|lia]. exfalso. apply N. apply (i_inj _ _ _ I); auto.
Qed.
Lemma anc_antisym a b : a < n -> b < n -> anc par a b -> anc par b a -> a = b.
Proof.
  intros Ha Hb A B. destruct (anc_disc a b Hb A) as [_ X]. destruct (anc_disc b a Ha B) as [_ Y]. apply (i_inj _ _ _ I); auto. lia.
Qed.

Lemma low_chain c x : x < n -> par c <> Some c -> anc par c x -> (low c <= low x)%N.
Proof.
  intros Hx Nc A. induction A as [|x p Ep N A IH]; [lia|]. destruct (par_facts x Hx) as (q & Eq & Hq & Q). rewrite Ep in Eq. injection Eq as <-.
  destruct Q as [Q|[Q _]]; [congruence|]. specialize (IH Hq). assert (Np : par p <> Some p). { intro Z. apply (anc_root par c p Z) in A. congruence. }
  destruct (i_fin _ _ _ I p (ALL p Hq) (fun H => H)) as [_ L]. pose proof (ls_child _ _ _ (L Np) x Q Ep). lia.
Qed.

(** the right side of v: the subtrees of the children that reach no proper ancestor of v *)
Definition right_of (v x : nat) : Prop := exists c, par c = Some v /\ c <> v /\ (disc v <= low c)%N /\ anc par c x.

Lemma right_lt v x : x < n -> right_of v x -> (disc v < disc x)%N.
Proof.
  intros Hx (c & Ec & Nc & _ & A). destruct (anc_disc c x Hx A) as [Hc L]. destruct (par_facts c Hc) as (q & Eq & _ & Q). rewrite Ec in Eq. injection Eq as <-. destruct Q as [Q|[_ Q]]; [congruence|]. lia.
Qed.

Lemma right_closed v x z : right_of v x -> In z (nb x) -> z <> v -> right_of v z.
Proof.
  intros RT H Nz. destruct (NR _ _ H) as (Hx & Hz & Nzx). pose proof RT as (c & Ec & Nc & L & A). destruct (anc_disc c x Hx A) as [Hc _].
  destruct (i_edge _ _ _ I x z (ALL x Hx) (ALL z Hz) H) as [B|B]; [exists c; split; [auto|]; split; [auto|]; split; [auto|]; apply (anc_trans par c x z); auto|].
  destruct (anc_linear par c z x A B) as [C|C]; [exists c; auto|].
  destruct (Nat.eq_dec z c) as [->|Nzc]; [exists c; split; [auto|]; split; [auto|]; split; [auto|constructor]|]. exfalso.
  assert (AV : anc par z v). { inversion C as [|? p Ep Np C']; [congruence|]. rewrite Ec in Ep. injection Ep as <-. exact C'. }
  destruct (par_facts c Hc) as (q & Eq & Hv & _). rewrite Ec in Eq. injection Eq as <-.
  pose proof (anc_lt z v Hv AV Nz) as D1. pose proof (anc_lt z x Hx B Nzx) as D2.
  assert (Nrx : par x <> Some x). { intro Z. pose proof (anc_root par c x Z A) as ->. congruence. }
  assert (Nrc : par c <> Some c) by congruence.
  destruct (i_fin _ _ _ I x (ALL x Hx) (fun H => H)) as [_ LL]. specialize (LL Nrx).
  assert (P1 : par z <> Some x).
  { intro Z. destruct (par_facts z Hz) as (q & Eq & _ & Q). rewrite Z in Eq. injection Eq as <-. destruct Q as [Q|[_ Q]]; [congruence|lia]. }
  assert (P2 : par x <> Some z).
  { intro Z. inversion A as [X|? p Ep Np A'].
    - subst. congruence.
    - rewrite Z in Ep. injection Ep as <-. apply Nzc. apply anc_antisym; auto. }
  pose proof (ls_back _ _ _ LL z H P1 P2) as B1. pose proof (low_chain c x Hx Nrc A) as B2. lia.
Qed.

Lemma step_le : (a_step s <= N.of_nat n)%N.
Proof.
  rewrite (i_step _ _ _ I). fold n. assert (H : forall k, bsum k (fun _ => 1%N) = N.of_nat k) by (induction k as [|k IH]; [reflexivity|rewrite bsum_S, IH; lia]).
  rewrite <- (H n). apply bsum_le. intros v Hv. destruct (a_vis s v); lia.
Qed.

Lemma climb_ok v : v < n -> forall fuel t, t < n -> N.to_nat (disc t) < fuel -> exists r y, ap_climb fuel s v t = Some (r, y) /\ y < n /\
  (if r then (t = v /\ y = v) \/ (right_of v t /\ right_of v y) else t <> v /\ ~ right_of v t /\ y <> v /\ ~ right_of v y) /\
  (t <> v -> joined E (fun x => x <> v) t y).
Proof.
  intro Hv. induction fuel as [|fuel IH]; intros t Ht F; [lia|]. cbn [ap_climb]. destruct (Nat.eqb_spec t v) as [->|Ntv].
  { exists true, v. split; [auto|]. split; [auto|]. split; [left; auto|congruence]. }
  destruct (par_facts t Ht) as (p & Ep & Hp & Q). rewrite Ep. destruct (is_par (Some p) v) eqn:P1.
  - apply is_par_ok in P1. injection P1 as ->. assert (Q' : (disc v < disc t)%N) by (destruct Q as [Q|[_ Q]]; [congruence|auto]).
    exists (disc v <=? low t)%N, t. split; [auto|]. split; [auto|]. split; [|intros _; constructor; auto]. destruct (N.leb_spec (disc v) (low t)) as [L|L].
    + right. assert (right_of v t) by (exists t; split; [auto|]; split; [auto|]; split; [auto|constructor]). auto.
    + assert (NRT : ~ right_of v t).
      { intros (c & Ec & Nc & L' & A). inversion A as [X|? p Ep' Np A']; [subst; lia|]. rewrite Ep in Ep'. injection Ep' as <-.
        destruct (anc_disc c v Hv A') as [Hc X]. destruct (par_facts c Hc) as (q & Eq & _ & Z). rewrite Ec in Eq. injection Eq as <-. destruct Z as [Z|[_ Z]]; [congruence|lia]. }
      auto.
  - apply is_par_no in P1. destruct (is_par (Some p) t) eqn:P2.
    + apply is_par_ok in P2. injection P2 as ->. exists false, t. split; [auto|]. split; [auto|]. split; [|intros _; constructor; auto].
      assert (NRT : ~ right_of v t). { intros (c & Ec & Nc & L' & A). pose proof (anc_root par c t Ep A) as ->. congruence. }
      auto.
    + apply is_par_no in P2. assert (Npt : p <> t) by congruence. destruct Q as [Q|[Q1 Q2]]; [contradiction|].
      destruct (IH p Hp) as (r & y & X1 & X2 & X3 & X4); [lia|]. exists r, y. split; [auto|]. split; [auto|]. split.
      * destruct r.
        -- destruct X3 as [[X _]|[X Y]]; [congruence|]. right. split; [|auto]. destruct X as (c & Ec & Nc & L & A). exists c. split; [auto|]. split; [auto|]. split; [auto|]. apply (anc_up par c t p); auto.
        -- destruct X3 as (X & Y & Z). split; [auto|]. split; [|auto]. intros (c & Ec & Nc & L & A). inversion A as [W|? p' Ep' Np' A'].
           ++ subst. congruence.
           ++ rewrite Ep in Ep'. injection Ep' as <-. apply Y. exists c. auto.
      * intros _. apply (joined_step E _ t p y); [auto|apply NS; auto|]. apply X4. congruence.
Qed.

Lemma climb_fuel t : t < n -> N.to_nat (disc t) < S n.
Proof. intro Ht. pose proof (i_disc _ _ _ I t (ALL t Ht)). pose proof step_le. lia. Qed.

Lemma sum_ok v ts : v < n -> (forall t, In t ts -> t < n) -> exists k, ap_sum (S n) s v ts = Some k /\ k <= length ts /\
  (k = 0 -> forall t, In t ts -> t <> v /\ ~ right_of v t) /\ (k = length ts -> forall t, In t ts -> t = v \/ right_of v t).
Proof.
  intros Hv. induction ts as [|t ts IH]; intro HT.
  - exists 0. split; [auto|]. split; [auto|]. split; intros _ ? [].
  - destruct IH as (k & Ek & Lk & K0 & K1); [intros; apply HT; right; auto|]. cbn [ap_sum]. assert (Ht : t < n) by (apply HT; left; auto).
    destruct (climb_ok v Hv (S n) t Ht (climb_fuel t Ht)) as (r & y & -> & _ & C & _). rewrite Ek. exists ((if r then 1 else 0) + k). split; [auto|]. cbn [length]. destruct r.
    + split; [lia|]. split; [lia|]. intros Q x [<-|Hx]; [tauto|]. apply K1; [lia|auto].
    + split; [lia|]. split; [|lia]. intros Q x [<-|Hx]; [tauto|]. apply K0; auto.
Qed.

(** ** one articulation point *)
Section Side.
Context (v : nat) (Hv : v < n) (invert : bool).
Definition side (x : nat) : Prop := if invert then x <> v /\ ~ right_of v x else right_of v x.

Lemma side_neq x : x < n -> side x -> x <> v.
Proof. unfold side. destruct invert; [tauto|]. intros Hx H ->. pose proof (right_lt v v Hv H). lia. Qed.
Lemma side_closed x z : side x -> In z (nb x) -> z <> v -> side z.
Proof.
  unfold side. intros S H N. destruct invert; [|apply (right_closed v x z); auto]. split; [auto|]. intro RZ. destruct S as [Nx S]. apply S. apply (right_closed v z x); auto.
Qed.

(** pairs merged so far for this vertex: edges inside, or v with the end of a climb from a neighbour *)
Definition gpair (c : nat -> bool) (p : nat * nat) : Prop :=
  fst p < n /\ snd p < n /\ c (fst p) = true /\ c (snd p) = true /\ nth (fst p) R [] <> [] /\ nth (snd p) R [] <> [] /\
  (In (snd p) (nb (fst p)) \/ (fst p = v /\ exists t, In t (nb v) /\ joined E (fun x => x <> v) t (snd p))).

Record BInv (ps0 gp : list (nat * nat)) (c : nat -> bool) (q : list nat) (u : uf) : Prop := {
  b_inv : inv n (ps0 ++ gp) u;
  b_v : c v = true;
  b_in : forall x, c x = true -> x < n /\ (x = v \/ side x);
  b_q : forall x, In x q -> c x = true /\ x <> v;
  b_done : forall x, c x = true -> x <> v -> In x q \/ forall z, In z (nb x) -> c z = true;
  b_gp : Forall (gpair c) gp }.

Lemma gpair_mono c c' p : (forall x, c x = true -> c' x = true) -> gpair c p -> gpair c' p.
Proof. intros M (A & B & C & D & F). exact (conj A (conj B (conj (M _ C) (conj (M _ D) F)))). Qed.

Lemma nb_row x y : In y (nb x) -> nth x R [] <> [].
Proof. unfold ap_nbrs. intros H Q. rewrite Q in H. destruct H. Qed.

Lemma joined_row t y : In t (nb v) -> joined E (fun x => x <> v) t y -> nth y R [] <> [].
Proof.
  intros H J. revert H. generalize v at 1 as a. induction J as [u Hu|u x w Hu Hux J IH]; intros a H.
  - apply (nb_row u a). apply NS. auto.
  - apply (IH u). auto.
Qed.

Lemma first_ok : forall es ps0 gp c q u, incl es (nb v) -> BInv ps0 gp c q u ->
  exists gp' c' q' u', ap_first (S n) s v invert es c q u = Some (c', q', u') /\ BInv ps0 gp' c' q' u' /\ (forall x, c x = true -> c' x = true) /\ length q' <= length q + length es.
Proof.
  induction es as [|t es IH]; intros ps0 gp c q u IE B; cbn [ap_first].
  - exists gp, c, q, u. split; [auto|]. split; [auto|]. split; [auto|]. lia.
  - assert (Ht : In t (nb v)) by (apply IE; left; auto). destruct (NR _ _ Ht) as (_ & Htn & Ntv). assert (IE' : incl es (nb v)) by (intros x Hx; apply IE; right; auto).
    destruct (climb_ok v Hv (S n) t Htn (climb_fuel t Htn)) as (r & y & -> & Hy & C & J). destruct (Bool.eqb r invert) eqn:Q; cbn [negb].
    + destruct (IH ps0 gp c q u IE' B) as (gp' & c' & q' & u' & X1 & X2 & X3 & X4). exists gp', c', q', u'. cbn [length]. split; [auto|]. split; [auto|]. split; [auto|]. lia.
    + assert (SY : side y /\ y <> v).
      { unfold side. destruct r, invert; try discriminate Q.
        - destruct C as [[C _]|[_ C]]; [congruence|]. split; [auto|]. intros ->. pose proof (right_lt v v Hv C). lia.
        - split; tauto. }
      destruct SY as [SY Ny]. destruct B as [B1 B2 B3 B4 B5 B6]. destruct (union_inv n (ps0 ++ gp) u v y B1 Hv Hy) as (u1 & b & -> & U & _).
      assert (M : forall x, c x = true -> fset c y true x = true) by (intros x Hx; unfold fset; destruct (x =? y); auto).
      destruct (IH ps0 (gp ++ [(v, y)]) (fset c y true) (q ++ [y]) u1 IE') as (gp' & c' & q' & u' & X1 & X2 & X3 & X4).
      * constructor.
        -- rewrite app_assoc. exact U.
        -- apply M. auto.
        -- intros x Hx. unfold fset in Hx. destruct (Nat.eqb_spec x y) as [Qx|Qx]; [rewrite Qx; auto|apply B3; auto].
        -- intros x Hx. apply in_app_or in Hx. destruct Hx as [Hx|[<-|[]]]; [destruct (B4 x Hx); auto|]. split; [apply fset_eq|auto].
        -- intros x Hx Nx. unfold fset in Hx. destruct (Nat.eqb_spec x y) as [Qx|Nxy]; [rewrite Qx; left; apply in_or_app; right; left; auto|].
           destruct (B5 x Hx Nx) as [D|D]; [left; apply in_or_app; auto|right; intros z Hz; apply M; auto].
        -- apply Forall_app. split; [eapply Forall_impl; [|exact B6]; intros p; apply gpair_mono; auto|].
           constructor; [|constructor]. split; [exact Hv|]. split; [exact Hy|]. split; [apply M; exact B2|]. split; [apply fset_eq|]. cbn [fst snd].
           split; [apply (nb_row v t); auto|]. split; [apply (joined_row t y); auto|]. right. split; [auto|]. exists t. split; [auto|]. apply J. auto.
      * exists gp', c', q', u'. split; [auto|]. split; [auto|]. split; [auto|]. rewrite app_length in X4. cbn [length] in *. lia.
Qed.

Definition free (c : nat -> bool) : N := bsum n (fun x => if c x then 0%N else 1%N).
Lemma free_set c t : t < n -> c t = false -> (free (fset c t true) + 1 = free c)%N.
Proof.
  intros Ht Q. unfold free. transitivity (bsum n (fun x => if fset c t true x then 0%N else 1%N) + bsum n (fun x => if Nat.eqb x t then 1%N else 0%N))%N.
  - rewrite (bsum_single n (fun _ => 1%N) t Ht). reflexivity.
  - rewrite <- bsum_add. apply bsum_ext. intros x Hx. unfold fset. destruct (Nat.eqb_spec x t) as [->|]; [rewrite Q; reflexivity|]. lia.
Qed.

(** while x is being expanded: it may still have neighbours in es that are not contracted *)
Record XInv (ps0 gp : list (nat * nat)) (c : nat -> bool) (q : list nat) (u : uf) (x : nat) (es : list nat) : Prop := {
  x_inv : inv n (ps0 ++ gp) u;
  x_v : c v = true;
  x_in : forall y, c y = true -> y < n /\ (y = v \/ side y);
  x_q : forall y, In y q -> c y = true /\ y <> v;
  x_done : forall y, c y = true -> y <> v -> y <> x -> In y q \/ forall z, In z (nb y) -> c z = true;
  x_gp : Forall (gpair c) gp;
  x_cx : c x = true /\ x <> v;
  x_es : forall z, In z (nb x) -> c z = true \/ In z es }.

Lemma bfs_edges_ok x : forall es ps0 gp c q u, incl es (nb x) -> XInv ps0 gp c q u x es ->
  exists gp' c' q' u', ap_bfs_edges x es c q u = Some (c', q', u') /\ XInv ps0 gp' c' q' u' x [] /\ (N.of_nat (length q') + free c' <= N.of_nat (length q) + free c)%N.
Proof.
  induction es as [|t es IH]; intros ps0 gp c q u IE B; cbn [ap_bfs_edges].
  - exists gp, c, q, u. split; [auto|]. split; [auto|]. lia.
  - assert (Ht : In t (nb x)) by (apply IE; left; auto). destruct (NR _ _ Ht) as (Hx & Htn & Ntx). assert (IE' : incl es (nb x)) by (intros y Hy; apply IE; right; auto).
    destruct B as [B1 B2 B3 B4 B5 B6 [B7 B7'] B8]. destruct (c t) eqn:Q.
    + apply (IH ps0 gp c q u IE'). constructor; auto. intros z Hz. destruct (B8 z Hz) as [H|[<-|H]]; auto.
    + destruct (union_inv n (ps0 ++ gp) u x t B1 Hx Htn) as (u1 & b & -> & U & _).
      assert (M : forall y, c y = true -> fset c t true y = true) by (intros y Hy; unfold fset; destruct (y =? t); auto).
      assert (Ntv : t <> v) by (intros ->; congruence). assert (SX : side x) by (destruct (B3 x B7) as [_ [X|X]]; [congruence|auto]).
      destruct (IH ps0 (gp ++ [(x, t)]) (fset c t true) (q ++ [t]) u1 IE') as (gp' & c' & q' & u' & X1 & X2 & X3).
      * constructor.
        -- rewrite app_assoc. exact U.
        -- apply M. auto.
        -- intros y Hy. unfold fset in Hy. destruct (Nat.eqb_spec y t) as [Qx|Qx]; [rewrite Qx|apply B3; auto]. split; [auto|]. right. apply (side_closed x t); auto.
        -- intros y Hy. apply in_app_or in Hy. destruct Hy as [Hy|[<-|[]]]; [destruct (B4 y Hy); auto|]. split; [apply fset_eq|auto].
        -- intros y Hy Ny Nyx. unfold fset in Hy. destruct (Nat.eqb_spec y t) as [Qx|Nyt]; [rewrite Qx; left; apply in_or_app; right; left; auto|].
           destruct (B5 y Hy Ny Nyx) as [D|D]; [left; apply in_or_app; auto|right; intros z Hz; apply M; auto].
        -- apply Forall_app. split; [eapply Forall_impl; [|exact B6]; intros p; apply gpair_mono; auto|].
           constructor; [|constructor]. split; [exact Hx|]. split; [exact Htn|]. split; [apply M; exact B7|]. split; [apply fset_eq|]. cbn [fst snd].
           split; [apply (nb_row x t); auto|]. split; [apply (nb_row t x); auto|]. left. auto.
        -- auto.
        -- intros z Hz. unfold fset. destruct (Nat.eqb_spec z t); [auto|]. destruct (B8 z Hz) as [H|[<-|H]]; [auto|congruence|auto].
      * exists gp', c', q', u'. split; [auto|]. split; [auto|]. pose proof (free_set c t Htn Q). rewrite app_length in X3. cbn [length] in X3. lia.
Qed.

Lemma bfs_ok : forall fuel ps0 gp c q u, BInv ps0 gp c q u -> (N.of_nat (length q) + free c < N.of_nat fuel)%N ->
  exists gp' c' u', ap_bfs fuel R c q u = Some (c', u') /\ BInv ps0 gp' c' [] u'.
Proof.
  induction fuel as [|fuel IH]; intros ps0 gp c q u B F; [lia|]. cbn [ap_bfs]. destruct q as [|x q]; [exists gp, c, u; auto|]. destruct B as [B1 B2 B3 B4 B5 B6].
  destruct (B4 x (or_introl eq_refl)) as [Cx Nx].
  destruct (bfs_edges_ok x (nb x) ps0 gp c q u (incl_refl _)) as (gp' & c' & q' & u' & -> & [X1 X2 X3 X4 X5 X6 X7 X8] & L).
  - constructor; auto.
    + intros y Hy. apply B4. right. auto.
    + intros y Hy Ny Nyx. destruct (B5 y Hy Ny) as [[D|D]|D]; [congruence|auto|auto].
  - apply (IH ps0 gp'); [|cbn [length] in F; lia]. constructor; auto. intros y Hy Ny. destruct (Nat.eq_dec y x) as [->|Nyx]; [|auto]. right. intros z Hz. destruct (X8 z Hz) as [H|[]]. auto.
Qed.
End Side.

(** the groups: a vertex and a set that only it separates from the rest *)
Record grp := mk_grp { g_v : nat; g_in : nat -> bool }.
Definition grp_ok (ts : list nat) (g : grp) : Prop :=
  g_v g < n /\ g_in g (g_v g) = false /\ (forall x, g_in g x = true -> ~ In x ts) /\ (forall x z, g_in g x = true -> In z (nb x) -> z <> g_v g -> g_in g z = true).
Definition inside (g : grp) (x : nat) : Prop := x = g_v g \/ g_in g x = true.
Definition explained (gs : list grp) (p : nat * nat) : Prop := exists g, In g gs /\ joined E (inside g) (fst p) (snd p).

Lemma sides_ok ts : (forall t, In t ts -> t < n) -> forall aps gs ps u ret, (forall v, In v aps -> v < n) -> inv n ps u -> edges_only R ps ->
  (forall g, In g gs -> grp_ok ts g) -> (forall p, In p ps -> explained gs p) -> (ret = false -> ps = []) ->
  exists r ps' gs', ap_sides R s ts aps u ret = Some (ap_uf r) /\ edges_only R ps' /\ (forall g, In g gs' -> grp_ok ts g) /\ (forall p, In p ps' -> explained gs' p) /\
    match r with Some u' => inv n ps' u' | None => ps' = [] end.
Proof.
  intro HT. induction aps as [|v aps IH]; intros gs ps u ret HA UI EO GO GE RT.
  - cbn [ap_sides]. destruct ret; [exists (Some u), ps, gs; auto|]. exists None, [], gs. split; [auto|]. split; [intros ? ? []|]. split; [auto|]. split; [intros ? []|auto].
  - cbn [ap_sides]. assert (Hv : v < n) by (apply HA; left; auto). assert (HA' : forall x, In x aps -> x < n) by (intros x Hx; apply HA; right; auto).
    destruct (sum_ok v ts Hv HT) as (k & Ek & _ & K0 & K1). fold n. rewrite Ek. destruct ((k =? 0) || (k =? length ts)) eqn:Q; [|apply (IH gs ps); auto].
    set (invert := k =? length ts).
    assert (B0 : BInv v invert ps [] (fset (fun _ => false) v true) [] u).
    { constructor.
      - rewrite app_nil_r. auto.
      - apply fset_eq.
      - intros x Hx. unfold fset in Hx. destruct (Nat.eqb_spec x v); [|discriminate Hx]. subst. auto.
      - intros x [].
      - intros x Hx Nx. unfold fset in Hx. destruct (Nat.eqb_spec x v); [contradiction|discriminate Hx].
      - constructor. }
    destruct (first_ok v Hv invert (nb v) ps [] _ [] u (incl_refl _) B0) as (gp1 & c1 & q1 & u1 & -> & B1 & _ & L1). cbn [length] in L1.
    assert (FR : (free c1 <= N.of_nat n)%N).
    { assert (H : forall k, bsum k (fun _ => 1%N) = N.of_nat k) by (induction k0 as [|k0 IHk]; [reflexivity|rewrite bsum_S, IHk; lia]). rewrite <- (H n). apply bsum_le. intros x Hx. destruct (c1 x); lia. }
    destruct (bfs_ok v Hv invert (S (length (nb v) + n)) ps gp1 c1 q1 u1 B1) as (gp2 & c2 & u2 & -> & [C1 C2 C3 C4 C5 C6]); [lia|].
    assert (NT : forall t, In t ts -> c2 t = true -> t = v).
    { intros t Ht Ct. destruct (C3 t Ct) as [_ [X|X]]; [auto|]. exfalso. unfold side, invert in X. destruct (k =? length ts) eqn:K.
      - apply Nat.eqb_eq in K. destruct (K1 K t Ht) as [Y|Y]; [|tauto]. tauto.
      - rewrite Bool.orb_false_r in Q. apply Nat.eqb_eq in Q. destruct (K0 Q t Ht) as [_ Y]. contradiction. }
    assert (EX : existsb (fun t => c2 t && negb (t =? v)) ts = false).
    { apply Bool.not_true_iff_false. intro X. apply existsb_exists in X. destruct X as (t & Ht & X). apply andb_prop in X. destruct X as [X Y].
      rewrite (NT t Ht X), Nat.eqb_refl in Y. discriminate Y. }
    rewrite EX. set (g := mk_grp v (fun x => c2 x && negb (x =? v))).
    assert (GI : forall x, g_in g x = true <-> c2 x = true /\ x <> v).
    { intro x. unfold g. cbn [g_in]. destruct (Nat.eqb_spec x v); destruct (c2 x); cbn; intuition congruence. }
    assert (GC : forall x z, g_in g x = true -> In z (nb x) -> z <> v -> g_in g z = true).
    { intros x z Hx Hz Nz. apply GI in Hx. destruct Hx as [Cx Nx]. apply GI. split; [|auto]. destruct (C5 x Cx Nx) as [[]|D]. auto. }
    assert (GG : grp_ok ts g).
    { split; [auto|]. split; [|split; [|exact GC]].
      - unfold g. cbn [g_in g_v]. rewrite Nat.eqb_refl. apply Bool.andb_false_r.
      - intros x Hx Ix. apply GI in Hx. destruct Hx as [Cx Nx]. apply Nx, NT; auto. }
    assert (IN : forall x, c2 x = true -> inside g x).
    { intros x Hx. unfold inside. destruct (Nat.eq_dec x v) as [->|Nx]; [left; auto|right; apply GI; auto]. }
    assert (GP : forall p, In p gp2 -> joined E (inside g) (fst p) (snd p)).
    { intros [a b] Hp. rewrite Forall_forall in C6. destruct (C6 _ Hp) as (P1 & P2 & P3 & P4 & _ & _ & P5). cbn [fst snd] in *. destruct P5 as [P5|(-> & t & Ht & J)].
      - apply (joined_step E _ a b b); [auto|auto|constructor; auto].
      - assert (Nb : b <> v) by (apply (joined_ok _ _ _ _ J)). assert (Gb : g_in g b = true) by (apply GI; auto).
        assert (JT : joined E (fun x => g_in g x = true) t b).
        { clear - J Gb GC NS. induction J as [y Hy|y z w Hy Hyz J IH]; [constructor; auto|]. specialize (IH Gb). apply (joined_step E _ y z w); [|auto|auto].
          apply (GC z y); auto. apply (joined_ok _ _ _ _ IH). }
        apply (joined_step E _ v t b); [auto|auto|]. apply (joined_mono E (fun x => g_in g x = true)); [intros x Hx; right; auto|auto]. }
    apply (IH (g :: gs) (ps ++ gp2)); auto.
    + intros a b Hp. apply in_app_or in Hp. destruct Hp as [Hp|Hp]; [auto|]. rewrite Forall_forall in C6. destruct (C6 _ Hp) as (_ & _ & _ & _ & P5 & P6 & _). auto.
    + intros g' [<-|Hg]; auto.
    + intros p Hp. apply in_app_or in Hp. destruct Hp as [Hp|Hp].
      * destruct (GE p Hp) as (g' & Hg & J). exists g'. split; [right; auto|auto].
      * exists g. split; [left; auto|auto].
    + discriminate.
Qed.
End Tree.
