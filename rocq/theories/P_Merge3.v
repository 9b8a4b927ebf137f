(* P_Merge3.v - proofs about mergeGraphs, part 3: a graph that represents a family of cuts; the glued graph represents both families. *)
From Verif Require Import SpecCut SpecDyn SpecMutable M_Mutable P_Mutable P_Cut P_LocalSearch P_LocalSearch2 P_AllMincuts P_MutableIO M_StCactus M_Merge P_StCactus3 P_StCactus7 P_StCactus8 P_StCactus9 P_Merge P_Merge2.

(** a family of cuts of n vertices *)
Record family (n : nat) (F : (nat -> bool) -> Prop) : Prop := {
  fa_ext : forall Y Y', (forall x, x < n -> Y x = Y' x) -> F Y -> F Y';
  fa_proper : forall Y, F Y -> proper n Y }.

(** the cuts of weight c of M are exactly those of F, no cut is smaller, any two vertices of M are separated by a cut of weight c; every
    original vertex is listed exactly at its place; edges of weight c or c/2, no parallel edges *)
Record rep (n : nat) (c : N) (F : (nat -> bool) -> Prop) (M : mg) : Prop := {
  rp_valid : mvalid M; rp_last : m_last M = m_n M; rp_orig : m_orig M = n; rp_lp : length (m_pos M) = n;
  rp_range : forall x, x < n -> nth x (m_pos M) 0 < m_n M; rp_groups : groups_exact (m_n M) (m_cont M) (m_pos M);
  rp_shape : shape c M; rp_nopar : no_parallel (m_rows M);
  rp_low : atleast c (m_n M) (wt (adj (m_rows M))); rp_apart : apart c (m_n M) (wt (adj (m_rows M)));
  rp_sound : forall f, proper (m_n M) f -> gcut M f = c -> F (fun x => f (nth x (m_pos M) 0));
  rp_complete : forall Y, F Y -> exists f, gcut M f = c /\ forall x, x < n -> f (nth x (m_pos M) 0) = Y x }.

Lemma rep_iff n c F F' M : family n F -> (forall Y, F Y <-> F' Y) -> rep n c F M -> rep n c F' M.
Proof. intros Fa E [A1 A2 A3 A4 A5 A6 A7 A8 A9 A10 A11 A12]. constructor; auto; intros; [apply E; auto|]. apply A12, E; auto. Qed.
Lemma rep_one n c F M : (0 < c)%N -> rep n c F M -> m_n M = 1 -> forall Y, ~ F Y.
Proof.
  intros Pc R E Y FY. destruct (rp_complete _ _ _ _ R Y FY) as (f & Ef & _). rewrite (gcut_const M f (f 0)) in Ef; [lia|]. intros x Hx. assert (x = 0) by lia. congruence.
Qed.
Lemma proper_or n (f : nat -> bool) a : a < n -> proper n f \/ forall x, x < n -> f x = f a.
Proof.
  intro Ha. destruct (proper_dec n f) as [P|[b Hb]]; [left; auto|right]. intros x Hx. rewrite !Hb; auto.
Qed.
Lemma cut_zero c M f a : (0 < c)%N -> atleast c (m_n M) (wt (adj (m_rows M))) -> a < m_n M -> gcut M f = 0%N -> forall x, x < m_n M -> f x = f a.
Proof. intros Pc Lo Ha E. destruct (proper_or (m_n M) f a Ha) as [P|]; [|auto]. specialize (Lo f P). unfold gcut in E. lia. Qed.

Section Rep.
Context (n : nat) (c : N) (Pc : (0 < c)%N) (F1 F2 : (nat -> bool) -> Prop) (G1 G2 : mg) (R1 : rep n c F1 G1) (R2 : rep n c F2 G2) (Fa1 : family n F1) (Fa2 : family n F2).
Context (v1 v2 : nat) (Hv1 : v1 < m_n G1) (Hv2 : v2 < m_n G2).
Notation n1 := (m_n G1). Notation n2 := (m_n G2). Notation idn := (mg_id n1 v1 v2).
Notation pT := (fun x => nth x (m_pos G1) 0). Notation pN := (fun x => nth x (m_pos G2) 0).
(** the vertices which are not at v1 in the first graph are at v2 in the second *)
Context (Out : forall x, x < n -> pT x <> v1 -> pN x = v2).

Definition Fboth (Y : nat -> bool) : Prop := F1 Y \/ F2 Y.
Lemma both_family : family n Fboth.
Proof. constructor; [intros Y Y' E [A|A]; [left; eapply (fa_ext n F1)|right; eapply (fa_ext n F2)]; eauto|]. intros Y [A|A]; [apply (fa_proper n F1)|apply (fa_proper n F2)]; auto. Qed.

Lemma glued_rep M : glued G1 G2 v1 v2 n M -> rep n c Fboth M.
Proof.
  intros [A1 A2 A3 A4 A5 A6 A7 _ A8 A9 A10 A11 A12].
  pose proof (rp_range _ _ _ _ R1) as B1. pose proof (rp_range _ _ _ _ R2) as B2.
  assert (Pos : forall x, x < n -> nth x (m_pos M) 0 = if pN x =? v2 then pT x else idn (pN x)) by (intros; apply A10; auto).
  assert (Idl : forall a, a < n2 -> idn a < m_n M) by (intros a Ha; rewrite A2; apply (id_lt G1 G2 v1 v2 Hv1 Hv2); auto).
  assert (Spl : forall X, proper (m_n M) X -> (proper n1 X \/ proper n2 (fun a => X (idn a)))).
  { intros X P. destruct (proper_or n1 X v1 Hv1) as [|C1]; [left; auto|]. destruct (proper_or n2 (fun a => X (idn a)) v2 Hv2) as [|C2]; [right; auto|]. exfalso.
    assert (K : forall y, y < m_n M -> X y = X v1). { intros y Hy. destruct (Nat.lt_ge_cases y n1); [auto|]. destruct (id_inv G1 G2 v1 v2 Hv1 Hv2 y ltac:(lia)) as (I1 & I2 & I3). rewrite <- I3. rewrite (C2 _ I1). cbv beta. rewrite id_v2. reflexivity. }
    destruct P as [(a & Ha & Xa) (b & Hb & Xb)]. rewrite K in Xa, Xb by auto. congruence. }
  assert (Both : forall X, proper (m_n M) X -> gcut M X = c ->
     (proper n1 X /\ gcut G1 X = c /\ forall a, a < n2 -> X (idn a) = X v1) \/ (proper n2 (fun a => X (idn a)) /\ gcut G2 (fun a => X (idn a)) = c /\ forall y, y < n1 -> X y = X v1)).
  { intros X P E. rewrite A5 in E. destruct (Spl X P) as [Q|Q].
    - left. pose proof (rp_low _ _ _ _ R1 X Q) as L. change (c <= gcut G1 X)%N in L. split; [auto|]. split; [lia|]. intros a Ha. rewrite <- (id_v2 G1 v1 v2) at 2. apply (cut_zero c G2 (fun a => X (idn a)) v2 Pc (rp_low _ _ _ _ R2) Hv2); [lia|auto].
    - right. pose proof (rp_low _ _ _ _ R2 _ Q) as L. change (c <= gcut G2 (fun a => X (idn a)))%N in L. split; [auto|]. split; [lia|]. intros a Ha. apply (cut_zero c G1 X v1 Pc (rp_low _ _ _ _ R1) Hv1); [lia|auto]. }
  (* extending cuts *)
  set (ext1 := fun (f : nat -> bool) y => if y <? n1 then f y else f v1). set (ext2 := fun (f : nat -> bool) y => f (mg_inv G1 v2 y)).
  assert (X1 : forall f, gcut M (ext1 f) = gcut G1 f).
  { intro f. rewrite A5. rewrite (gcut_ext G1 (ext1 f) f). 2: { intros x Hx. unfold ext1. destruct (Nat.ltb_spec x n1); [reflexivity|lia]. }
    rewrite (gcut_const G2 _ (f v1)); [lia|]. intros a Ha. unfold ext1. destruct (Nat.eq_dec a v2) as [->|Na]; [rewrite id_v2; destruct (v1 <? n1); reflexivity|].
    pose proof (id_new G1 G2 v1 v2 Hv1 Hv2 a Na). destruct (Nat.ltb_spec (idn a) n1); [lia|reflexivity]. }
  assert (X2 : forall f, gcut M (ext2 f) = gcut G2 f).
  { intro f. rewrite A5. rewrite (gcut_const G1 _ (f v2)). 2: { intros x Hx. unfold ext2, mg_inv. destruct (Nat.ltb_spec x n1); [reflexivity|lia]. }
    rewrite N.add_0_l. apply gcut_ext. intros a Ha. unfold ext2. rewrite (inv_id G1 G2 v1 v2 Hv1 Hv2) by auto. reflexivity. }
  constructor.
  - exact A1.
  - exact A3.
  - rewrite A4. apply (rp_orig _ _ _ _ R1).
  - exact A9.
  - intros x Hx. rewrite Pos by auto. specialize (B1 x Hx). specialize (B2 x Hx). cbv beta in *. destruct (_ =? v2); [lia|auto].
  - split; [lia|]. pose proof (rp_groups _ _ _ _ R1) as [_ Q1]. pose proof (rp_groups _ _ _ _ R2) as [_ Q2]. pose proof (rp_lp _ _ _ _ R1) as L1. pose proof (rp_lp _ _ _ _ R2) as L2. intros p x Hp. rewrite A9. rewrite A2 in Hp.
    destruct (Nat.lt_ge_cases p n1) as [L|L].
    + rewrite A11 by auto. destruct (Nat.eqb_spec p v1) as [->|Np].
      * rewrite filter_In, (Q2 v2 x Hv2), Nat.eqb_eq, L2. split.
        -- intros [[Hx E2] E1]. split; [auto|]. rewrite Pos by auto. cbv beta. rewrite E2, Nat.eqb_refl. exact E1.
        -- intros [Hx E]. rewrite Pos in E by auto. cbv beta in *. destruct (Nat.eqb_spec (nth x (m_pos G2) 0) v2) as [E2|E2]; [auto|]. pose proof (id_new G1 G2 v1 v2 Hv1 Hv2 _ E2). lia.
      * rewrite (Q1 p x L), L1. split.
        -- intros [Hx E]. split; [auto|]. rewrite Pos by auto. cbv beta. rewrite (Out x Hx) by congruence. rewrite Nat.eqb_refl. exact E.
        -- intros [Hx E]. rewrite Pos in E by auto. cbv beta in *. destruct (Nat.eqb_spec (nth x (m_pos G2) 0) v2) as [E2|E2]; [auto|]. pose proof (id_new G1 G2 v1 v2 Hv1 Hv2 _ E2). lia.
    + destruct (id_inv G1 G2 v1 v2 Hv1 Hv2 p ltac:(lia)) as (I1 & I2 & I3). rewrite <- I3 at 1. rewrite A12 by auto. rewrite (Q2 _ x I1), L2. split.
      * intros [Hx E]. split; [auto|]. rewrite Pos by auto. cbv beta. rewrite E. destruct (Nat.eqb_spec (mg_inv G1 v2 p) v2); [contradiction|auto].
      * intros [Hx E]. split; [auto|]. rewrite Pos in E by auto. cbv beta in *. destruct (Nat.eqb_spec (nth x (m_pos G2) 0) v2) as [E2|E2]; [specialize (B1 x Hx); cbv beta in B1; lia|]. rewrite <- E. rewrite (inv_id G1 G2 v1 v2 Hv1 Hv2) by (apply B2; auto). reflexivity.
  - apply A6; [apply R1|apply R2].
  - apply A7; [apply R1|apply R2].
  - intros X P. change (c <= gcut M X)%N. rewrite A5. destruct (Spl X P) as [Q|Q]; [pose proof (rp_low _ _ _ _ R1 X Q) as L; change (c <= gcut G1 X)%N in L|pose proof (rp_low _ _ _ _ R2 _ Q) as L; change (c <= gcut G2 (fun a => X (idn a)))%N in L]; lia.
  - intros a b Ha Hb Nab. rewrite A2 in Ha, Hb. destruct (Nat.lt_ge_cases a n1) as [La|La], (Nat.lt_ge_cases b n1) as [Lb|Lb].
    + destruct (rp_apart _ _ _ _ R1 a b La Lb Nab) as (f & D & E). exists (ext1 f). split; [unfold ext1; destruct (Nat.ltb_spec a n1), (Nat.ltb_spec b n1); try lia; auto|]. change (gcut M (ext1 f) = c). rewrite X1. exact E.
    + destruct (id_inv G1 G2 v1 v2 Hv1 Hv2 b ltac:(lia)) as (I1 & I2 & I3). destruct (rp_apart _ _ _ _ R2 v2 (mg_inv G1 v2 b) Hv2 I1 ltac:(congruence)) as (f & D & E). exists (ext2 f). split; [unfold ext2; unfold mg_inv at 1; destruct (Nat.ltb_spec a n1); [exact D|lia]|]. change (gcut M (ext2 f) = c). rewrite X2. exact E.
    + destruct (id_inv G1 G2 v1 v2 Hv1 Hv2 a ltac:(lia)) as (I1 & I2 & I3). destruct (rp_apart _ _ _ _ R2 (mg_inv G1 v2 a) v2 I1 Hv2 I2) as (f & D & E). exists (ext2 f). split; [unfold ext2; unfold mg_inv at 2; destruct (Nat.ltb_spec b n1); [exact D|lia]|]. change (gcut M (ext2 f) = c). rewrite X2. exact E.
    + destruct (id_inv G1 G2 v1 v2 Hv1 Hv2 a ltac:(lia)) as (I1 & I2 & I3). destruct (id_inv G1 G2 v1 v2 Hv1 Hv2 b ltac:(lia)) as (J1 & J2 & J3).
      destruct (rp_apart _ _ _ _ R2 (mg_inv G1 v2 a) (mg_inv G1 v2 b) I1 J1 ltac:(congruence)) as (f & D & E). exists (ext2 f). split; [exact D|]. change (gcut M (ext2 f) = c). rewrite X2. exact E.
  - intros X P E. destruct (Both X P E) as [(Q1 & Q2 & Q3)|(Q1 & Q2 & Q3)].
    + left. eapply (fa_ext n F1 Fa1); [|apply (rp_sound _ _ _ _ R1 X Q1 Q2)]. intros x Hx. cbv beta. rewrite Pos by auto. cbv beta. destruct (Nat.eqb_spec (nth x (m_pos G2) 0) v2) as [E2|E2]; [reflexivity|]. rewrite Q3 by (apply B2; auto). f_equal.
      destruct (Nat.eq_dec (nth x (m_pos G1) 0) v1) as [|N1]; [auto|]. destruct E2. apply Out; auto.
    + right. eapply (fa_ext n F2 Fa2); [|apply (rp_sound _ _ _ _ R2 _ Q1 Q2)]. intros x Hx. cbv beta. rewrite Pos by auto. cbv beta. destruct (Nat.eqb_spec (nth x (m_pos G2) 0) v2) as [E2|E2]; [|reflexivity]. rewrite E2, id_v2. symmetry. apply Q3. apply B1; auto.
  - intros Y [FY|FY].
    + destruct (rp_complete _ _ _ _ R1 Y FY) as (f & E & H). exists (ext1 f). split; [rewrite X1; auto|]. intros x Hx. rewrite <- H by auto. rewrite Pos by auto. specialize (B1 x Hx). specialize (B2 x Hx). specialize (Out x Hx). cbv beta in *. unfold ext1. destruct (Nat.eqb_spec (nth x (m_pos G2) 0) v2) as [E2|E2].
      * destruct (Nat.ltb_spec (nth x (m_pos G1) 0) n1); [reflexivity|lia].
      * pose proof (id_new G1 G2 v1 v2 Hv1 Hv2 _ E2). destruct (Nat.ltb_spec (idn (nth x (m_pos G2) 0)) n1); [lia|]. destruct (Nat.eq_dec (nth x (m_pos G1) 0) v1) as [Q|Q]; [rewrite Q; reflexivity|]. destruct E2. auto.
    + destruct (rp_complete _ _ _ _ R2 Y FY) as (f & E & H). exists (ext2 f). split; [rewrite X2; auto|]. intros x Hx. rewrite <- H by auto. rewrite Pos by auto. specialize (B1 x Hx). specialize (B2 x Hx). cbv beta in *. unfold ext2. destruct (Nat.eqb_spec (nth x (m_pos G2) 0) v2) as [E2|E2].
      * unfold mg_inv. destruct (Nat.ltb_spec (nth x (m_pos G1) 0) n1); [rewrite E2; reflexivity|lia].
      * rewrite (inv_id G1 G2 v1 v2 Hv1 Hv2) by auto. reflexivity.
Qed.

Theorem glue_rep : exists M, glue G1 v1 G2 v2 = Some M /\ glued G1 G2 v1 v2 n M /\ rep n c Fboth M.
Proof.
  destruct (glue_ok G1 G2 v1 v2 n (rp_valid _ _ _ _ R1) (rp_valid _ _ _ _ R2) Hv1 Hv2 (rp_last _ _ _ _ R1) (rp_lp _ _ _ _ R1) (rp_lp _ _ _ _ R2)) as (M & E & Gd).
  - destruct (rp_shape _ _ _ _ R1) as (_ & _ & L & _). exact L.
  - apply R2.
  - exists M. split; [auto|]. split; [auto|]. apply glued_rep; auto.
Qed.
End Rep.
