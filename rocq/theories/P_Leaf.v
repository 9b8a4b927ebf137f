(* P_Leaf.v - a leaf put back into a cactus (recursive_cactus.h:188-196, heavy_edges.h:89-104): what the cuts of the new graph are. *)
From Verif Require Import SpecCut SpecDyn SpecMutable M_Mutable P_Mutable P_Cut P_LocalSearch P_LocalSearch2 P_AllMincuts P_MutableIO M_StCactus M_Merge M_Recursive P_StCactus3 P_StCactus7 P_StCactus8 P_StCactus9 P_StCactus10 P_Merge2 P_Merge3.

(** like rep of P_Merge3.v, but only the original vertices of A are in the graph *)
Record rep_live (n : nat) (c : N) (A : nat -> Prop) (F : (nat -> bool) -> Prop) (M : mg) : Prop := {
  rl_valid : mvalid M; rl_last : m_last M = m_n M; rl_orig : m_orig M = n; rl_lp : length (m_pos M) = n; rl_some : 1 <= m_n M;
  rl_range : forall x, x < n -> A x -> nth x (m_pos M) 0 < m_n M;
  rl_groups : forall p x, p < m_n M -> (In x (nth p (m_cont M) []) <-> (x < n /\ A x /\ nth x (m_pos M) 0 = p));
  rl_shape : shape c M; rl_nopar : no_parallel (m_rows M);
  rl_low : atleast c (m_n M) (wt (adj (m_rows M))); rl_apart : apart c (m_n M) (wt (adj (m_rows M)));
  rl_sound : forall f, proper (m_n M) f -> gcut M f = c -> F (fun x => f (nth x (m_pos M) 0));
  rl_complete : forall Y, F Y -> exists f, gcut M f = c /\ forall x, x < n -> A x -> f (nth x (m_pos M) 0) = Y x }.

Lemma live_rep n c F M : rep_live n c (fun _ => True) F M -> rep n c F M.
Proof.
  intros [A1 A2 A3 A4 A0 A5 A6 A7 A8 A9 A10 A11 A12]. constructor; auto.
  - split; [destruct A7 as (_ & _ & L & _); lia|]. intros p x Hp. rewrite A6 by auto. rewrite A4. tauto.
  - intros Y FY. destruct (A12 Y FY) as (f & E & B). exists f. auto.
Qed.

(** the cuts of F, the taken out vertices on the side of y, and the leaf alone *)
Definition with_leaf (n : nat) (A : nat -> Prop) (y : nat) (ec : list nat) (F : (nat -> bool) -> Prop) (Y : nat -> bool) : Prop :=
  (exists b, (forall x, x < n -> A x -> Y x = b) /\ forall x, In x ec -> Y x = negb b) \/ (F Y /\ forall x, In x ec -> Y x = Y y).

Section Leaf.
Context (n : nat) (c : N) (Pc : (0 < c)%N) (A : nat -> Prop) (F : (nat -> bool) -> Prop) (R : mg) (RP : rep_live n c A F R).
Context (Ext : forall Y Y', (forall x, x < n -> A x -> Y x = Y' x) -> F Y -> F Y').
Context (y : nat) (Hy : y < n) (Ay : A y) (ec : list nat) (Hec : forall x, In x ec -> x < n /\ ~ A x) (Ne : ec <> []).
Let p := nth y (m_pos R) 0.
Let q := m_last R.

Lemma add_leaf : exists R2, match m_new_edge (new_empty_node R) p q c with Some R1 => he_fill q ec R1 | None => None end = Some R2 /\
  rep_live n c (fun x => A x \/ In x ec) (with_leaf n A y ec F) R2.
Proof.
  destruct RP as [V La O Lp Sm Rg Gr Sh NP Lo Ap So Co]. assert (Hp : p < m_n R) by (apply Rg; auto). assert (Eq : q = m_n R) by exact La.
  destruct (empty_any R V La) as (V0 & N0 & L0 & P0 & C0 & O0 & G0). cbv zeta in *. set (R0 := new_empty_node R) in *.
  assert (T0 : tgts (nth q (m_rows R0) []) = []).
  { unfold R0, new_empty_node. rewrite La, Nat.eqb_refl. cbn [m_rows]. rewrite Eq. unfold m_n. rewrite app_nth2, Nat.sub_diag by lia. reflexivity. }
  assert (NP0 : no_parallel (m_rows R0)).
  { unfold R0, new_empty_node. rewrite La, Nat.eqb_refl. cbn [m_rows]. intro v. destruct (Nat.lt_ge_cases v (length (m_rows R))) as [L|L]; [rewrite app_nth1 by auto; apply NP|].
    rewrite app_nth2 by auto. destruct (v - length (m_rows R)) as [|[|?]]; cbn; constructor. }
  destruct (order_cut R0 p q c V0 ltac:(lia) ltac:(lia) ltac:(lia)) as (R1 & E1 & V1 & N1 & G1).
  assert (E1' : m_new_edge R0 p q c = Some R1). { unfold new_edge_order in E1. destruct (Nat.ltb_spec p q); [exact E1|lia]. }
  destruct (order_nopar R0 p q c R1 V0 ltac:(lia) ltac:(lia) ltac:(lia) NP0) as (NP1 & _ & _ & La1 & _); [rewrite T0; auto|exact E1|].
  destruct (order_more _ _ _ _ _ E1) as (C1 & _ & P1 & O1).
  assert (Sh1 : shape c R1). { apply (new_edge_shape c R0 p q c R1); auto. apply empty_shape. auto. }
  rewrite E1'. unfold he_fill, set_cont. destruct Sh as (S1 & S2 & S3 & S4). assert (LC : length (m_cont R1) = S (m_n R)) by (rewrite C1, C0, app_length, S3; cbn; lia).
  destruct (Nat.ltb_spec q (length (m_cont R1))); [|lia].
  set (M1 := mk_mg (m_rows R1) (m_deg R1) (m_part R1) (m_cut R1) (m_pos R1) (upd (m_cont R1) q ec) (m_last R1) (m_ne R1) (m_pc R1) (m_orig R1)).
  destruct (set_all_ok q ec M1) as (R2 & E2 & SC & C2 & Q1 & Q2 & L2 & P2). { intros x I. cbn. rewrite P1, P0, Lp. apply Hec. auto. }
  exists R2. split; [exact E2|]. cbn [M1 m_pos] in L2, P2. rewrite P1, P0, Lp in L2, P2.
  destruct SC as (K1 & K2 & K3 & K4 & K5). cbn [M1 m_rows m_deg m_ne m_last m_orig m_cont m_part m_cut] in *.
  assert (N2 : m_n R2 = S (m_n R)) by (unfold m_n in *; rewrite K1; lia).
  assert (Cut : forall f, gcut R2 f = (gcut R f + dif f p q c)%N). { intro f. unfold gcut, m_n. rewrite K1. change (gcut R1 f = (gcut R f + dif f p q c)%N). rewrite G1, G0. reflexivity. }
  assert (Old : forall x, x < n -> A x -> nth x (m_pos R2) 0 = nth x (m_pos R) 0).
  { intros x Hx Ax. rewrite P2 by auto. destruct (existsb (Nat.eqb x) ec) eqn:E; [|reflexivity]. apply existsb_exists in E as (x' & I & E). apply Nat.eqb_eq in E. subst x'. destruct (Hec x I). contradiction. }
  assert (New : forall x, In x ec -> nth x (m_pos R2) 0 = q).
  { intros x I. rewrite P2 by (apply Hec; auto). destruct (existsb (Nat.eqb x) ec) eqn:E; [reflexivity|]. exfalso. assert (existsb (Nat.eqb x) ec = true); [|congruence]. apply existsb_exists. exists x. split; [auto|apply Nat.eqb_refl]. }
  assert (Cutq : gcut R2 (fun u => u =? q) = c).
  { rewrite Cut, (gcut_const R _ false) by (intros x Hx; apply Nat.eqb_neq; lia). unfold dif. rewrite Nat.eqb_refl. destruct (Nat.eqb_spec p q); [lia|reflexivity]. }
  constructor.
  - destruct V1 as (W1 & W2 & W3). split; [|split]; rewrite ?K1, ?K2, ?K3; auto.
  - lia.
  - congruence.
  - exact L2.
  - lia.
  - intros x Hx [Ax|I]; [rewrite Old by auto; pose proof (Rg x Hx Ax); lia|rewrite New by auto; lia].
  - intros v x Hv. rewrite C2, C1, C0, nth_upd. destruct (Nat.eqb_spec v q) as [->|Nv].
    + rewrite app_length, S3. cbn [length]. destruct (Nat.ltb_spec q (m_n R + 1)); [|lia]. cbn [andb]. split.
      * intro I. split; [apply Hec; auto|]. split; [right; auto|apply New; auto].
      * intros (Hx & [Ax|I] & E); [|auto]. rewrite Old in E by auto. pose proof (Rg x Hx Ax). lia.
    + cbn [andb]. rewrite app_nth1 by lia. rewrite Gr by lia. split.
      * intros (Hx & Ax & E). split; [auto|]. split; [auto|]. rewrite Old; auto.
      * intros (Hx & [Ax|I] & E); [rewrite Old in E by auto; auto|]. rewrite New in E by auto. congruence.
  - destruct Sh1 as (T1 & T2 & T3 & T4). unfold shape, m_n. rewrite K1, Q1, Q2, C2, upd_length. split; [exact T1|]. split; [exact T2|]. split; [exact T3|exact T4].
  - rewrite K1. exact NP1.
  - intros f Pf. change (c <= gcut R2 f)%N. rewrite Cut. unfold dif. destruct (Bool.eqb (f p) (f q)) eqn:Q; [|lia]. apply Bool.eqb_prop in Q. rewrite N.add_0_r. apply Lo.
    destruct Pf as [(a & Ha & Fa) (b & Hb & Fb)]. split; [exists (if a =? q then p else a)|exists (if b =? q then p else b)]; [destruct (Nat.eqb_spec a q) as [->|]|destruct (Nat.eqb_spec b q) as [->|]]; split; auto; try lia; congruence.
  - intros a b Ha Hb Nab. destruct (Nat.eq_dec a q) as [Ea|Na]; [exists (fun u => u =? q); split; [|exact Cutq]; rewrite Ea, Nat.eqb_refl; destruct (Nat.eqb_spec b q); congruence|].
    destruct (Nat.eq_dec b q) as [Eb|Nb]; [exists (fun u => u =? q); split; [|exact Cutq]; rewrite Eb, Nat.eqb_refl; destruct (Nat.eqb_spec a q); congruence|].
    destruct (Ap a b ltac:(lia) ltac:(lia) Nab) as (f & D & E). exists (fun u => if u =? q then f p else f u). split.
    + destruct (Nat.eqb_spec a q); [lia|]. destruct (Nat.eqb_spec b q); [lia|]. exact D.
    + change (gcut R2 (fun u => if u =? q then f p else f u) = c). rewrite Cut. unfold dif. rewrite Nat.eqb_refl. destruct (Nat.eqb_spec p q); [lia|]. rewrite Bool.eqb_reflx, N.add_0_r. rewrite <- E. apply gcut_ext. intros u Hu. destruct (Nat.eqb_spec u q); [lia|reflexivity].
  - intros f Pf E. rewrite Cut in E. unfold dif in E. destruct (Bool.eqb (f p) (f q)) eqn:Q.
    + right. apply Bool.eqb_prop in Q. rewrite N.add_0_r in E.
      assert (PR : proper (m_n R) f). { destruct Pf as [(a & Ha & Fa) (b & Hb & Fb)]. split; [exists (if a =? q then p else a)|exists (if b =? q then p else b)]; [destruct (Nat.eqb_spec a q) as [->|]|destruct (Nat.eqb_spec b q) as [->|]]; split; auto; try lia; congruence. }
      split; [apply (Ext (fun x => f (nth x (m_pos R) 0))); [intros x Hx Ax; rewrite Old by auto; reflexivity|apply So; auto]|].
      intros x I. rewrite New, Old by auto. symmetry. exact Q.
    + left. exists (f p). apply Bool.eqb_false_iff in Q. assert (Z : gcut R f = 0%N) by lia.
      assert (Cn : forall a, a < m_n R -> f a = f p).
      { destruct (proper_or (m_n R) f p Hp) as [Pr|Cn]; [|exact Cn]. pose proof (Lo f Pr) as X. unfold gcut in Z. rewrite Z in X. lia. }
      split; [intros x Hx Ax; rewrite Old by auto; apply Cn; apply Rg; auto|]. intros x I. rewrite New by auto. clear - Q. destruct (f p), (f q); try reflexivity; exfalso; apply Q; reflexivity.
  - intros Y [(b & Yb & Yl)|(FY & Yl)].
    + exists (fun u => if u =? q then negb b else b). split.
      * rewrite Cut, (gcut_const R _ b) by (intros x Hx; destruct (Nat.eqb_spec x q); [lia|reflexivity]). unfold dif. rewrite Nat.eqb_refl. destruct (Nat.eqb_spec p q); [lia|]. destruct b; reflexivity.
      * intros x Hx [Ax|I]; [rewrite Old by auto; pose proof (Rg x Hx Ax); destruct (Nat.eqb_spec (nth x (m_pos R) 0) q); [lia|symmetry; auto]|rewrite New, Nat.eqb_refl by auto; symmetry; auto].
    + destruct (Co Y FY) as (f & Ef & Bf). exists (fun u => if u =? q then f p else f u). split.
      * rewrite Cut. unfold dif. rewrite Nat.eqb_refl. destruct (Nat.eqb_spec p q); [lia|]. rewrite Bool.eqb_reflx, N.add_0_r. rewrite <- Ef. apply gcut_ext. intros u Hu. destruct (Nat.eqb_spec u q); [lia|reflexivity].
      * intros x Hx [Ax|I]; [rewrite Old by auto; pose proof (Rg x Hx Ax); destruct (Nat.eqb_spec (nth x (m_pos R) 0) q); [lia|apply Bf; auto]|rewrite New, Nat.eqb_refl by auto; rewrite Yl by auto; unfold p; apply Bf; auto].
Qed.
End Leaf.
