(* P_Artic.v - the depth-first search of find_articulation_points. *)
From Verif Require Import SpecRel P_UnionFind P_Cut P_Mutable P_MutableIO P_Multi P_Kernel.
From Verif Require Export M_Artic.

Lemma fset_eq {A} (f : nat -> A) i x : fset f i x i = x.
Proof. unfold fset. rewrite Nat.eqb_refl. reflexivity. Qed.
Lemma fset_neq {A} (f : nat -> A) i x j : j <> i -> fset f i x j = f j.
Proof. unfold fset. intro H. destruct (Nat.eqb_spec j i); [contradiction|reflexivity]. Qed.
Lemma is_par_ok p v : is_par p v = true <-> p = Some v.
Proof. unfold is_par. destruct p as [x|]; [rewrite Nat.eqb_eq; split; congruence|split; discriminate]. Qed.
Lemma is_par_no p v : is_par p v = false <-> p <> Some v.
Proof. rewrite <- is_par_ok. destruct (is_par p v); split; congruence. Qed.

(** a is an ancestor of v (or v itself) *)
Inductive anc (par : nat -> option nat) (a : nat) : nat -> Prop :=
| anc_refl : anc par a a
| anc_up v p : par v = Some p -> p <> v -> anc par a p -> anc par a v.

Lemma anc_trans par a b c : anc par a b -> anc par b c -> anc par a c.
Proof. intros A B. induction B as [|v p E N _ IH]; [auto|]. apply (anc_up par a v p); auto. Qed.
Lemma anc_linear par a b v : anc par a v -> anc par b v -> anc par a b \/ anc par b a.
Proof.
  intros A B. induction A as [|v p E N A IH].
  - right. exact B.
  - destruct B as [|v p' E' N' B]; [left; apply (anc_up par a b p); auto|]. rewrite E in E'. injection E' as <-. apply IH. exact B.
Qed.
Lemma anc_ext par par' (V : nat -> Prop) a v : (forall x, V x -> par' x = par x) -> (forall x p, V x -> par x = Some p -> V p) -> V v -> anc par a v -> anc par' a v.
Proof.
  intros E C Hv A. induction A as [|v p Ep N A IH]; [constructor|]. apply (anc_up par' a v p); auto. rewrite E; auto. apply IH. apply (C v); auto.
Qed.
Lemma anc_root par a r : par r = Some r -> anc par a r -> a = r.
Proof. intros E A. destruct A as [|v p E' N _]; [reflexivity|]. congruence. Qed.

(** ** leaving a vertex *)
Lemma leave_edge b s t : t <> b -> let s' := ap_leave_edge b s t in
  a_vis s' = a_vis s /\ a_disc s' = a_disc s /\ a_par s' = a_par s /\ a_stack s' = a_stack s /\ a_step s' = a_step s /\
  (forall x, x <> b -> a_low s' x = a_low s x) /\
  ((a_par s t = Some b /\ a_low s' b = N.min (a_low s b) (a_low s t)) \/
   (a_par s t <> Some b /\ a_par s b <> Some t /\ a_low s' b = N.min (a_low s b) (a_disc s t)) \/
   (a_par s t <> Some b /\ a_par s b = Some t /\ a_low s' b = a_low s b)) /\
  (forall x, In x (a_aps s') <-> In x (a_aps s) \/ (x = b /\ a_par s b <> Some b /\ a_par s t = Some b /\ (a_disc s b <= a_low s t)%N)).
Proof.
  intro Nt. cbv zeta. unfold ap_leave_edge. destruct (is_par (a_par s t) b) eqn:E1.
  - apply is_par_ok in E1. cbn [a_vis a_disc a_par a_stack a_step a_low a_aps]. do 5 (split; [reflexivity|]). split; [intros x Nx; apply fset_neq; auto|].
    split; [left; rewrite fset_eq; auto|]. rewrite fset_neq by auto. intro x. destruct (is_par (a_par s b) b) eqn:E2.
    + apply is_par_ok in E2. cbn [negb andb]. split; [auto|]. intros [H|(_ & H & _)]; [auto|contradiction].
    + apply is_par_no in E2. cbn [negb andb]. destruct (N.leb_spec (a_disc s b) (a_low s t)) as [L|L].
      * rewrite in_app_iff. cbn [In]. split; [intros [H|[H|[]]]; auto|]. intros [H|(H & _)]; auto.
      * split; [auto|]. intros [H|(_ & _ & _ & H)]; [auto|lia].
  - apply is_par_no in E1. assert (A : forall x, In x (a_aps s) <-> In x (a_aps s) \/ (x = b /\ a_par s b <> Some b /\ a_par s t = Some b /\ (a_disc s b <= a_low s t)%N)).
    { intro x. split; [auto|]. intros [H|(_ & _ & H & _)]; [auto|contradiction]. }
    destruct (is_par (a_par s b) t) eqn:E2; cbn [negb].
    + apply is_par_ok in E2. do 5 (split; [reflexivity|]). split; [reflexivity|]. split; [right; right; auto|exact A].
    + apply is_par_no in E2. cbn [a_vis a_disc a_par a_stack a_step a_low a_aps]. do 5 (split; [reflexivity|]). split; [intros x Nx; apply fset_neq; auto|].
      split; [right; left; rewrite fset_eq; auto|exact A].
Qed.

Record left_spec (b : nat) (l : list nat) (s s' : apst) : Prop := {
  lv_vis : a_vis s' = a_vis s; lv_disc : a_disc s' = a_disc s; lv_par : a_par s' = a_par s; lv_stack : a_stack s' = a_stack s; lv_step : a_step s' = a_step s;
  lv_other : forall x, x <> b -> a_low s' x = a_low s x;
  lv_le : (a_low s' b <= a_low s b)%N;
  lv_child : forall t, In t l -> a_par s t = Some b -> (a_low s' b <= a_low s t)%N;
  lv_back : forall t, In t l -> a_par s t <> Some b -> a_par s b <> Some t -> (a_low s' b <= a_disc s t)%N;
  lv_hit : a_low s' b = a_low s b \/ (exists t, In t l /\ a_par s t = Some b /\ a_low s' b = a_low s t) \/
     (exists t, In t l /\ a_par s t <> Some b /\ a_par s b <> Some t /\ a_low s' b = a_disc s t);
  lv_aps : forall x, In x (a_aps s') <-> In x (a_aps s) \/ (x = b /\ a_par s b <> Some b /\ exists t, In t l /\ a_par s t = Some b /\ (a_disc s b <= a_low s t)%N) }.

Lemma leave_fold b : forall l s, ~ In b l -> left_spec b l s (fold_left (ap_leave_edge b) l s).
Proof.
  induction l as [|t l IH]; intros s Nb; cbn [fold_left].
  - constructor; auto; try lia; try (intros ? []). intro x. split; [auto|]. intros [H|(_ & _ & t & [] & _)]. auto.
  - assert (Nt : t <> b) by (intros ->; apply Nb; left; auto). assert (Nl : ~ In b l) by (intro H; apply Nb; right; auto).
    pose proof (leave_edge b s t Nt) as E. cbv zeta in E. specialize (IH (ap_leave_edge b s t) Nl). set (s1 := ap_leave_edge b s t) in *. clearbody s1.
    destruct E as (E1 & E2 & E3 & E4 & E5 & E6 & E7 & E8). destruct IH as [I1 I2 I3 I4 I5 I6 I7 I8 I9 I10 I11]. set (s2 := fold_left (ap_leave_edge b) l s1) in *. clearbody s2.
    rewrite E2, E3 in *. assert (L1 : (a_low s1 b <= a_low s b)%N) by (destruct E7 as [[_ E]|[(_ & _ & E)|(_ & _ & E)]]; lia).
    assert (NI : forall x, In x l -> x <> b) by (intros x Hx ->; contradiction).
    constructor; try congruence.
    + intros x Nx. rewrite I6, E6 by auto. reflexivity.
    + lia.
    + intros x [<-|Hx] Px; [destruct E7 as [[_ E]|[(E & _)|(E & _)]]; [lia|contradiction..]|]. rewrite <- (E6 x) by auto. auto.
    + intros x [<-|Hx] Px Qx; [destruct E7 as [[E _]|[(_ & _ & E)|(_ & E & _)]]; [contradiction|lia|contradiction]|]. auto.
    + destruct I10 as [Q|[(x & Hx & Px & Q)|(x & Hx & Px & Qx & Q)]].
      * destruct E7 as [[P E]|[(P & P' & E)|(P & P' & E)]].
        -- destruct (N.min_spec (a_low s b) (a_low s t)) as [[_ M]|[_ M]]; rewrite M in E; [left; congruence|right; left; exists t; split; [left; auto|]; split; [auto|congruence]].
        -- destruct (N.min_spec (a_low s b) (a_disc s t)) as [[_ M]|[_ M]]; rewrite M in E; [left; congruence|]. right. right. exists t. split; [left; auto|]. split; [auto|]. split; [auto|congruence].
        -- left. congruence.
      * right. left. exists x. split; [right; auto|]. split; [auto|]. rewrite <- (E6 x) by auto. auto.
      * right. right. exists x. split; [right; auto|]. auto.
    + intro x. rewrite I11, E8. split.
      * intros [[H|(-> & P & P' & L)]|(-> & P & y & Hy & P' & L)]; [auto|right; split; [auto|]; split; [auto|]; exists t; split; [left; auto|auto]|].
        right. split; [auto|]. split; [auto|]. exists y. split; [right; auto|]. split; [auto|]. rewrite <- (E6 y) by auto. auto.
      * intros [H|(-> & P & y & [<-|Hy] & P' & L)]; [auto|left; right; auto|]. right. split; [auto|]. split; [auto|]. exists y. split; [auto|]. split; [auto|]. rewrite (E6 y) by auto. auto.
Qed.

(** ** entering a vertex *)
Record pushed (n : nat) (l : list nat) (s s' : apst) : Prop := {
  pu_vis : a_vis s' = a_vis s; pu_disc : a_disc s' = a_disc s; pu_low : a_low s' = a_low s; pu_aps : a_aps s' = a_aps s; pu_step : a_step s' = a_step s;
  pu_stack : exists seg, a_stack s' = seg ++ a_stack s /\ length seg <= length l /\ (forall t, In t seg <-> In t l /\ a_vis s t = false);
  pu_new : forall t, In t l -> a_vis s t = false -> a_par s' t = Some n;
  pu_old : forall t, ~ (In t l /\ a_vis s t = false) -> a_par s' t = a_par s t }.

Lemma push_fold n : forall l s, pushed n l s (fold_left (ap_push n) l s).
Proof.
  induction l as [|t l IH]; intro s; cbn [fold_left].
  - constructor; auto; [|intros ? []]. exists []. split; [reflexivity|]. split; [cbn; lia|]. intro t. cbn. tauto.
  - specialize (IH (ap_push n s t)). destruct IH as [I1 I2 I3 I4 I5 (seg & I6 & I6l & I6') I7 I8]. unfold ap_push in *. destruct (a_vis s t) eqn:Et.
    + constructor; auto.
      * exists seg. split; [auto|]. split; [cbn; lia|]. intro x. rewrite I6'. cbn. split; [tauto|]. intros [[<-|H] Q]; [congruence|auto].
      * intros x [<-|Hx] Q; [congruence|auto].
      * intros x Nx. apply I8. intros [H Q]. apply Nx. split; [right; auto|auto].
    + cbn [a_vis a_disc a_low a_aps a_step a_stack a_par] in *. constructor; auto.
      * exists (seg ++ [t]). split; [rewrite <- app_assoc; exact I6|]. split; [rewrite app_length; cbn; lia|]. intro x. rewrite in_app_iff, I6'. cbn. split.
        -- intros [[H Q]|[<-|[]]]; auto.
        -- intros [[<-|H] Q]; auto.
      * intros x [<-|Hx] Q; [|auto]. destruct (in_dec Nat.eq_dec t l) as [H|H]; [auto|]. rewrite I8 by tauto. apply fset_eq.
      * intros x Nx. destruct (Nat.eq_dec x t) as [->|Nt]; [exfalso; apply Nx; split; [left; auto|auto]|]. rewrite I8; [apply fset_neq; auto|]. intros [H Q]. apply Nx. split; [right; auto|auto].
Qed.

(** ** the search *)
Fixpoint chain (par : nat -> option nat) (l : list nat) : Prop :=
  match l with
  | [] => True
  | a :: l' => match l' with [] => par a = Some a | b :: _ => par a = Some b /\ a <> b end /\ chain par l'
  end.

Lemma chain_anc par : forall l h, chain par (h :: l) -> forall x, In x (h :: l) -> anc par x h.
Proof.
  induction l as [|b l IH]; intros h C x [<-|H]; try constructor; [destruct H|].
  destruct C as [[E N] C]. apply (anc_up par x h b); auto.
Qed.
Lemma chain_root par : forall l h, chain par (h :: l) -> exists r, In r (h :: l) /\ par r = Some r /\ r = last (h :: l) 0.
Proof.
  induction l as [|b l IH]; intros h C; [exists h; destruct C as [E _]; cbn; auto|]. destruct C as [_ C]. destruct (IH b C) as (r & I & E & L).
  exists r. split; [right; auto|]. split; [auto|]. cbn [last] in *. exact L.
Qed.
Lemma chain_ext par par' l : (forall x, In x l -> par' x = par x) -> chain par l -> chain par' l.
Proof.
  induction l as [|a l IH]; [auto|]. intros E [C D]. cbn [chain]. split; [|apply IH; auto; intros x Hx; apply E; right; auto].
  rewrite E by (left; auto). exact C.
Qed.

Section DFS.
Context (R : list (list half)).
Let n := length R.
Notation nb := (ap_nbrs R).
Hypothesis NR : forall v t, In t (nb v) -> v < n /\ t < n /\ t <> v.
Hypothesis NS : forall v t, In t (nb v) -> In v (nb t).

Notation V s x := (a_vis s x = true).

Record LS (s : apst) (x : nat) : Prop := {
  ls_child : forall t, In t (nb x) -> a_par s t = Some x -> (a_low s x <= a_low s t)%N;
  ls_back : forall t, In t (nb x) -> a_par s t <> Some x -> a_par s x <> Some t -> (a_low s x <= a_disc s t)%N;
  ls_hit : a_low s x = a_disc s x \/ (exists t, In t (nb x) /\ a_par s t = Some x /\ a_low s x = a_low s t) \/
     (exists t, In t (nb x) /\ a_par s t <> Some x /\ a_par s x <> Some t /\ a_low s x = a_disc s t) }.

Definition cutter (s : apst) (x : nat) : Prop := a_par s x <> Some x /\ exists t, In t (nb x) /\ a_par s t = Some x /\ (a_disc s x <= a_low s t)%N.

Record Inv (s : apst) (path : list nat) : Prop := {
  i_rng : forall x, V s x -> x < n;
  i_par : forall x, V s x -> exists p, a_par s x = Some p /\ V s p /\ (p = x \/ (In x (nb p) /\ (a_disc s p < a_disc s x)%N));
  i_disc : forall x, V s x -> (1 <= a_disc s x /\ a_disc s x <= a_step s)%N;
  i_inj : forall x y, V s x -> V s y -> a_disc s x = a_disc s y -> x = y;
  i_step : a_step s = bsum n (fun v => if a_vis s v then 1%N else 0%N);
  i_edge : forall x y, V s x -> V s y -> In y (nb x) -> anc (a_par s) x y \/ anc (a_par s) y x;
  i_fin : forall x, V s x -> ~ In x path -> (forall t, In t (nb x) -> V s t) /\ (a_par s x <> Some x -> LS s x);
  i_path : forall x, In x path -> V s x /\ a_low s x = a_disc s x;
  i_chain : chain (a_par s) path;
  i_aps : forall x, In x (a_aps s) <-> V s x /\ ~ In x path /\ cutter s x;
  i_root : forall x, V s x -> exists r, anc (a_par s) r x /\ a_par s r = Some r /\ r <= x;
  i_min : forall x, In x path -> a_par s x = Some x -> forall y, y < n -> a_vis s y = false -> x <= y }.

Lemma par_visited s path x p : Inv s path -> V s x -> a_par s x = Some p -> V s p.
Proof. intros I Hx E. destruct (i_par _ _ I x Hx) as (q & E' & Hq & _). congruence. Qed.

Lemma chain_disc s path : Inv s path -> forall l h, (forall x, In x (h :: l) -> V s x) -> chain (a_par s) (h :: l) -> forall x, In x l -> (a_disc s x < a_disc s h)%N.
Proof.
  intro I. induction l as [|b l IH]; intros h Hv C x H; [destruct H|]. destruct C as [[E N] C].
  destruct (i_par _ _ I h (Hv h (or_introl eq_refl))) as (q & E' & _ & Q). rewrite E in E'. injection E' as <-. destruct Q as [Q|[_ Q]]; [congruence|].
  destruct H as [<-|H]; [auto|]. specialize (IH b (fun y Hy => Hv y (or_intror Hy)) C x H). lia.
Qed.

Lemma path_head s h l : Inv s (h :: l) -> ~ In h l.
Proof.
  intros I H. pose proof (chain_disc s _ I l h (fun x Hx => proj1 (i_path _ _ I x Hx)) (i_chain _ _ I) h H) as X. exact (N.lt_irrefl _ X).
Qed.

Lemma leave_ok s b c rest : Inv s (b :: c :: rest) -> (forall t, In t (nb b) -> V s t) ->
  Inv (fold_left (ap_leave_edge b) (nb b) s) (c :: rest) /\ left_spec b (nb b) s (fold_left (ap_leave_edge b) (nb b) s).
Proof.
  intros I NV. assert (Nb : ~ In b (nb b)) by (intro H; destruct (NR _ _ H) as (_ & _ & X); congruence).
  pose proof (leave_fold b (nb b) s Nb) as L. split; [|exact L]. set (s' := fold_left (ap_leave_edge b) (nb b) s) in *. clearbody s'.
  pose proof (path_head s b (c :: rest) I) as NP. destruct (i_path _ _ I b (or_introl eq_refl)) as [Vb Lb]. pose proof (i_chain _ _ I) as [[Pb Nbc] Ch].
  destruct L as [L1 L2 L3 L4 L5 L6 L7 L8 L9 L10 L11].
  assert (Ot : forall x t, x <> c -> a_par s t = Some x -> a_low s' t = a_low s t).
  { intros x t Nx Et. apply L6. intros ->. congruence. }
  constructor; rewrite ?L1, ?L2, ?L3, ?L5; try apply I.
  - intros x Vx Nx. destruct (Nat.eq_dec x b) as [->|Nxb].
    + split; [auto|]. intros _. assert (NT : forall t, In t (nb b) -> a_low s' t = a_low s t) by (intros t Ht; apply L6; intros ->; contradiction).
      constructor; rewrite ?L2, ?L3.
      * intros t Ht Pt. rewrite (NT t) by auto. auto.
      * auto.
      * rewrite <- Lb. destruct L10 as [Q|[(t & Ht & Pt & Q)|Q]]; [auto| |auto]. right. left. exists t. rewrite (NT t) by auto. auto.
    + destruct (i_fin _ _ I x Vx) as [A B]; [intros [->|H]; auto|]. split; [auto|]. intro Q. destruct (B Q) as [B1 B2 B3].
      assert (Nxc : x <> c) by (intros ->; apply Nx; left; auto).
      constructor; rewrite ?L2, ?L3.
      * intros t Ht Pt. rewrite (Ot x t), (L6 x) by auto. auto.
      * intros t Ht P1 P2. rewrite (L6 x) by auto. auto.
      * rewrite (L6 x) by auto. destruct B3 as [Z|[(t & Ht & Pt & Z)|Z]]; [auto| |auto]. right. left. exists t. rewrite (Ot x t) by auto. auto.
  - intros x Hx. destruct (i_path _ _ I x (or_intror Hx)) as [A B]. split; [auto|]. rewrite L6; [auto|]. intros ->. contradiction.
  - intro x. rewrite L11, (i_aps _ _ I x). unfold cutter. rewrite L2, L3. split.
    + intros [(A & B & C & t & Ht & Pt & Q)|(-> & C & t & Ht & Pt & Q)].
      * assert (x <> c) by (intros ->; apply B; right; left; auto). split; [auto|]. split; [intro H'; apply B; right; auto|]. split; [auto|]. exists t. rewrite (Ot x t) by auto. auto.
      * split; [auto|]. split; [auto|]. split; [auto|]. exists t. rewrite L6; [auto|]. intros ->. contradiction.
    + intros (A & B & C & t & Ht & Pt & Q). assert (x <> c) by (intros ->; apply B; left; auto). rewrite (Ot x t) in Q by auto. destruct (Nat.eq_dec x b) as [->|Nxb].
      * right. split; [auto|]. split; [auto|]. exists t. auto.
      * left. split; [auto|]. split; [intros [E|H']; auto|]. split; [auto|]. exists t. auto.
  - intros x Hx. apply (i_min _ _ I x). right. exact Hx.
Qed.

Lemma enter_ok s path v : Inv s path -> a_vis s v = false -> v < n ->
  (exists p rest, path = p :: rest /\ a_par s v = Some p /\ In v (nb p)) \/ (path = [] /\ a_par s v = Some v /\ forall y, y < n -> a_vis s y = false -> v <= y) ->
  Inv (ap_enter R s v) (v :: path) /\
  exists seg, a_stack (ap_enter R s v) = seg ++ a_stack s /\ length seg <= length (nb v) /\ (forall t, In t seg <-> In t (nb v) /\ a_vis s t = false /\ t <> v) /\
    a_vis (ap_enter R s v) = fset (a_vis s) v true /\ (forall t, In t seg -> a_par (ap_enter R s v) t = Some v) /\ (forall t, ~ In t seg -> a_par (ap_enter R s v) t = a_par s t).
Proof.
  intros I Nv Hv PV. unfold ap_enter. set (k := (a_step s + 1)%N). set (s1 := mk_ap _ _ _ _ _ _ _).
  pose proof (push_fold v (nb v) s1) as P. set (s2 := fold_left (ap_push v) (nb v) s1) in *. clearbody s2. destruct P as [P1 P2 P3 P4 P5 (seg & P6 & P6l & P6') P7 P8]. unfold s1 in *. clear s1.
  cbn [a_vis a_disc a_low a_aps a_step a_stack a_par] in *.
  assert (VS : forall x, V s2 x <-> x = v \/ V s x).
  { intro x. rewrite P1. unfold fset. destruct (Nat.eqb_spec x v) as [->|N]; [tauto|]. split; [auto|intros [E|E]; [contradiction|auto]]. }
  assert (SG : forall t, In t seg <-> In t (nb v) /\ a_vis s t = false /\ t <> v).
  { intro t. rewrite P6'. unfold fset. destruct (Nat.eqb_spec t v); [split; [intros [_ X]; discriminate X|tauto]|tauto]. }
  assert (PN : forall t, In t seg -> a_par s2 t = Some v) by (intros t Ht; apply P6' in Ht; apply P7; tauto).
  assert (PO : forall t, ~ In t seg -> a_par s2 t = a_par s t) by (intros t Ht; apply P8; rewrite <- P6'; auto).
  assert (PV' : forall x, V s x -> a_par s2 x = a_par s x) by (intros x Vx; apply PO; rewrite SG; intros (_ & X & _); congruence).
  assert (Pv : a_par s2 v = a_par s v) by (apply PO; rewrite SG; tauto).
  assert (NE : forall x, V s x -> x <> v) by (intros x Vx ->; congruence).
  assert (Dn : a_disc s2 v = k) by (rewrite P2; apply fset_eq).
  assert (Do : forall x, x <> v -> a_disc s2 x = a_disc s x) by (intros x Nx; rewrite P2; apply fset_neq; auto).
  assert (Lo : forall x, x <> v -> a_low s2 x = a_low s x) by (intros x Nx; rewrite P3; apply fset_neq; auto).
  assert (PC : forall x p, V s x -> a_par s x = Some p -> V s p) by (intros x p Hx; apply (par_visited s path); auto).
  assert (AE : forall a x, V s x -> anc (a_par s) a x -> anc (a_par s2) a x) by (intros a x Vx A; apply (anc_ext (a_par s) _ (fun y => V s y)); auto).
  assert (AV : forall x, In x path -> anc (a_par s2) x v).
  { intros x Hx. destruct PV as [(p & rest & -> & Ep & _)|(-> & _)]; [|destruct Hx]. destruct (i_path _ _ I p (or_introl eq_refl)) as [Vp _].
    apply (anc_up _ x v p); [congruence|apply NE; auto|]. apply AE; auto. apply (chain_anc _ rest); [apply (i_chain _ _ I)|auto]. }
  assert (NV : forall x, V s x -> In v (nb x) -> In x path).
  { intros x Vx H. destruct (in_dec Nat.eq_dec x path) as [J|J]; [auto|]. destruct (i_fin _ _ I x Vx J) as [A _]. specialize (A v H). congruence. }
  split; [|exists seg; split; [exact P6|]; split; [exact P6l|]; split; [exact SG|]; split; [exact P1|]; split; [exact PN|exact PO]].
  constructor.
  - intros x Hx. apply VS in Hx. destruct Hx as [->|Hx]; [auto|apply (i_rng _ _ I); auto].
  - intros x Hx. apply VS in Hx. destruct Hx as [->|Hx].
    + rewrite Pv. destruct PV as [(p & rest & -> & Ep & Inb)|(-> & Ep & _)].
      * destruct (i_path _ _ I p (or_introl eq_refl)) as [Vp _]. exists p. split; [auto|]. split; [apply VS; auto|]. right. split; [auto|].
        rewrite Dn, Do by (apply NE; auto). pose proof (i_disc _ _ I p Vp). unfold k. lia.
      * exists v. split; [auto|]. split; [apply VS; auto|auto].
    + rewrite PV' by auto. destruct (i_par _ _ I x Hx) as (p & Ep & Vp & Q). exists p. split; [auto|]. split; [apply VS; auto|]. rewrite !Do by (apply NE; auto). auto.
  - intros x Hx. rewrite P5. apply VS in Hx. destruct Hx as [->|Hx]; [rewrite Dn; unfold k; lia|]. rewrite Do by (apply NE; auto). pose proof (i_disc _ _ I x Hx). unfold k. lia.
  - intros x y Hx Hy. apply VS in Hx. apply VS in Hy. destruct Hx as [->|Hx], Hy as [->|Hy]; auto; rewrite ?Dn, ?Do by (apply NE; auto).
    + pose proof (i_disc _ _ I y Hy). unfold k. lia.
    + pose proof (i_disc _ _ I x Hx). unfold k. lia.
    + apply (i_inj _ _ I); auto.
  - rewrite P5, P1. unfold k. rewrite (i_step _ _ I). transitivity (bsum n (fun v => if a_vis s v then 1%N else 0%N) + bsum n (fun x => if Nat.eqb x v then 1%N else 0%N))%N; [rewrite (bsum_single n (fun _ => 1%N) v Hv); reflexivity|]. rewrite <- bsum_add. apply bsum_ext. intros x Hx. unfold fset.
    destruct (Nat.eqb_spec x v) as [->|]; [rewrite Nv; reflexivity|]. lia.
  - intros x y Hx Hy H. apply VS in Hx. apply VS in Hy. destruct Hx as [->|Hx], Hy as [->|Hy].
    + left. constructor.
    + right. apply AV, NV; auto.
    + left. apply AV, NV; auto.
    + destruct (i_edge _ _ I x y Hx Hy H) as [A|A]; [left|right]; apply AE; auto.
  - intros x Hx Nx. apply VS in Hx. destruct Hx as [->|Hx]; [exfalso; apply Nx; left; auto|]. destruct (i_fin _ _ I x Hx) as [A B]; [intro H; apply Nx; right; auto|].
    split; [intros t Ht; apply VS; auto|]. rewrite PV' by auto. intro Q. destruct (B Q) as [B1 B2 B3].
    constructor; rewrite ?PV', ?Lo, ?Do by (auto; apply NE; auto).
    + intros t Ht. rewrite PV', Lo by (auto; apply NE; auto). auto.
    + intros t Ht. rewrite PV', Do by (auto; apply NE; auto). auto.
    + destruct B3 as [Z|[(t & Ht & Pt & Z)|(t & Ht & Pt & Pt' & Z)]]; [auto|right; left|right; right]; exists t; rewrite PV', ?Lo, ?Do by (auto; apply NE; auto); auto.
  - intros x [<-|Hx]; [split; [apply VS; auto|rewrite P2, P3, !fset_eq; reflexivity]|]. destruct (i_path _ _ I x Hx) as [A B]. split; [apply VS; auto|]. rewrite Lo, Do by (apply NE; auto). auto.
  - destruct PV as [(p & rest & -> & Ep & Inb)|(-> & Ep & _)].
    + destruct (i_path _ _ I p (or_introl eq_refl)) as [Vp _]. change ((a_par s2 v = Some p /\ v <> p) /\ chain (a_par s2) (p :: rest)). split; [split; [congruence|intros E; apply (NE p); auto]|]. apply (chain_ext (a_par s)); [|apply (i_chain _ _ I)].
      intros x Hx. apply PV'. apply (i_path _ _ I x Hx).
    + cbn [chain]. split; [congruence|auto].
  - intro x. rewrite P4, (i_aps _ _ I x), VS. unfold cutter. split.
    + intros (A & B & C & t & Ht & Pt & Q). split; [auto|]. split; [intros [E|H]; [apply (NE x A); auto|auto]|]. rewrite PV' by auto. split; [auto|]. exists t.
      assert (Vt : V s t) by (apply (i_fin _ _ I x A B); auto). rewrite PV', Do, Lo by (auto; apply NE; auto). auto.
    + intros (A & B & C & t & Ht & Pt & Q). destruct A as [->|A]; [exfalso; apply B; left; auto|]. assert (B' : ~ In x path) by (intro H; apply B; right; auto).
      assert (Vt : V s t) by (apply (i_fin _ _ I x A B'); auto). rewrite PV' in C, Pt by auto. rewrite Do, Lo in Q by (apply NE; auto). split; [auto|]. split; [auto|]. split; [auto|]. exists t. auto.
  - intros x Hx. apply VS in Hx. destruct Hx as [->|Hx].
    + destruct PV as [(p & rest & -> & Ep & Inb)|(-> & Ep & _)].
      * destruct (chain_root (a_par s) rest p (i_chain _ _ I)) as (r & Ir & Er & _). exists r. split; [apply AV; auto|]. rewrite PV' by (apply (i_path _ _ I r Ir)). split; [auto|]. apply (i_min _ _ I r Ir Er); auto.
      * exists v. split; [constructor|]. split; [congruence|lia].
    + destruct (i_root _ _ I x Hx) as (r & A & Er & L). exists r. split; [apply AE; auto|]. split; [|auto]. rewrite PV'; [auto|].
      clear - A Hx PC. induction A as [|x p E N A IH]; [auto|]. apply IH. apply (PC x); auto.
  - intros x [<-|Hx] Ex y Hy Ny; rewrite P1 in Ny; unfold fset in Ny; destruct (Nat.eqb_spec y v); try discriminate Ny.
    + destruct PV as [(p & rest & -> & Ep & Inb)|(-> & _ & M)]; [|apply M; auto]. destruct (i_path _ _ I p (or_introl eq_refl)) as [Vp _]. rewrite Pv, Ep in Ex. injection Ex as ->. congruence.
    + apply (i_min _ _ I x Hx); auto. rewrite <- PV'; [auto|]. apply (i_path _ _ I x Hx).
Qed.
End DFS.
