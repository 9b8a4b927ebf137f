(* P_Recursive2.v - proofs about internalRecursiveCactus, part 2: merging the cactuses of the components one after the other. *)
From Verif Require Import SpecCut SpecDyn SpecMutable M_Mutable P_Mutable P_Cut P_LocalSearch P_LocalSearch2 P_AllMincuts P_MutableIO Prop_StCactus P_Recursive M_StCactus M_Merge M_Recursive P_StCactus9 P_ContractStd2 P_Merge3 P_Merge6.

(** a graph the recursion works on: every vertex of it stands for at least one of the n original vertices, no cut is below c *)
Record good (n : nat) (c : N) (G : mg) : Prop := {
  gd_valid : mvalid G; gd_last : m_last G = m_n G; gd_orig : m_orig G = n; gd_lp : length (m_pos G) = n;
  gd_range : forall x, x < n -> nth x (m_pos G) 0 < m_n G; gd_groups : groups_exact (m_n G) (m_cont G) (m_pos G);
  gd_lens : length (m_part G) = m_n G /\ length (m_cut G) = m_n G /\ length (m_cont G) = m_n G;
  gd_full : forall p, p < m_n G -> nth p (m_cont G) [] <> [];
  gd_nopar : no_parallel (m_rows G); gd_nozero : no_zero (m_rows G);
  gd_low : atleast c (m_n G) (wt (adj (m_rows G))); gd_some : 1 <= m_n G }.

(** the cuts of weight c of G that satisfy P, as cuts of the original vertices *)
Definition cuts_of (n : nat) (c : N) (G : mg) (P : (nat -> bool) -> Prop) (Y : nat -> bool) : Prop :=
  exists S, proper (m_n G) S /\ gcut G S = c /\ P S /\ forall x, x < n -> Y x = S (nth x (m_pos G) 0).
Definition mincuts_of (n : nat) (c : N) (G : mg) (Y : nat -> bool) : Prop :=
  exists S, proper (m_n G) S /\ gcut G S = c /\ forall x, x < n -> Y x = S (nth x (m_pos G) 0).

Section Families.
Context (n : nat) (c : N) (G : mg) (GD : good n c G).
Lemma member p : p < m_n G -> exists x, x < n /\ nth x (m_pos G) 0 = p.
Proof.
  intro Hp. pose proof (gd_full _ _ _ GD p Hp) as F. destruct (nth p (m_cont G) []) as [|x l] eqn:E; [congruence|]. exists x.
  assert (I : In x (nth p (m_cont G) [])) by (rewrite E; left; auto). apply (proj2 (gd_groups _ _ _ GD) p x Hp) in I. rewrite (gd_lp _ _ _ GD) in I. exact I.
Qed.
Lemma cuts_family P : family n (cuts_of n c G P).
Proof.
  constructor.
  - intros Y Y' E (S & A & B & C & D). exists S. split; [auto|]. split; [auto|]. split; [auto|]. intros x Hx. rewrite <- E by auto. auto.
  - intros Y (S & [(a & Ha & Sa) (b & Hb & Sb)] & _ & _ & D). destruct (member a Ha) as (x & Hx & Ex), (member b Hb) as (y & Hy & Ey).
    split; [exists x|exists y]; (split; [auto|]); rewrite D by auto; congruence.
Qed.
Lemma mincuts_family : family n (mincuts_of n c G).
Proof.
  constructor.
  - intros Y Y' E (S & A & B & D). exists S. split; [auto|]. split; [auto|]. intros x Hx. rewrite <- E by auto. auto.
  - intros Y (S & A & B & D). apply (fa_proper _ _ (cuts_family (fun _ => True)) Y). exists S. auto.
Qed.
End Families.

(** two original vertices that no cut of the family separates are at the same place *)
Lemma rep_same n c F M x y : (0 < c)%N -> rep n c F M -> x < n -> y < n -> (forall Y, F Y -> Y x = Y y) -> nth x (m_pos M) 0 = nth y (m_pos M) 0.
Proof.
  intros Pc R Hx Hy E. destruct (Nat.eq_dec (nth x (m_pos M) 0) (nth y (m_pos M) 0)) as [|N]; [auto|exfalso].
  destruct (rp_apart _ _ _ _ R _ _ (rp_range _ _ _ _ R x Hx) (rp_range _ _ _ _ R y Hy) N) as (f & D & Ef).
  apply D. apply (E (fun x => f (nth x (m_pos M) 0))). apply (rp_sound _ _ _ _ R); [|exact Ef].
  destruct (proper_or (m_n M) f _ (rp_range _ _ _ _ R x Hx)) as [P|P]; [auto|]. exfalso. apply D. symmetry. apply P. apply (rp_range _ _ _ _ R y Hy).
Qed.
Lemma rep_differ n c F M x y Y : rep n c F M -> x < n -> y < n -> F Y -> Y x <> Y y -> nth x (m_pos M) 0 <> nth y (m_pos M) 0.
Proof. intros R Hx Hy FY D E. destruct (rp_complete _ _ _ _ R Y FY) as (f & _ & A). apply D. rewrite <- !A by auto. congruence. Qed.

(** component cc of G: the other vertices are merged *)
Definition out_of (n : nat) (f : nat -> nat) (cc : nat) (S : nat -> bool) : Prop := exists b, forall w, w < n -> f w <> cc -> S w = b.
Record part (n : nat) (c : N) (G : mg) (f : nat -> nat) (cc : nat) (H : mg) (h : nat -> nat) : Prop := {
  pt_good : good n c H; pt_less : m_n H < m_n G; pt_clu : clustering (m_n G) h (m_n H);
  pt_merge : merges (m_n G) (fun u => f u <> cc) h;
  pt_con : contraction_of (m_n G) (wt (adj (m_rows G))) h (m_n H) (wt (adj (m_rows H)));
  pt_pos : forall x, x < n -> nth x (m_pos H) 0 = h (nth x (m_pos G) 0) }.

Lemma part_cuts n c G f cc H h : good n c G -> part n c G f cc H h -> forall Y, mincuts_of n c H Y <-> cuts_of n c G (out_of (m_n G) f cc) Y.
Proof.
  intros GD [GH Le Cl Me Co Po] Y. assert (Cut : forall S, gcut H S = gcut G (fun u => S (h u))) by (intro S; apply contraction_cut; [apply Cl|auto]). split.
  - intros (S & P & E & A). exists (fun u => S (h u)). split; [eapply proper_pull; eauto|]. split; [rewrite <- Cut; auto|]. split.
    + destruct (existsb (fun u => negb (f u =? cc)) (seq 0 (m_n G))) eqn:Q.
      * apply existsb_exists in Q as (u & Iu & Q). apply in_seq in Iu. apply negb_true_iff, Nat.eqb_neq in Q. exists (S (h u)). intros w Hw Nw. f_equal. apply (Me w u); auto; lia.
      * exists true. intros w Hw Nw. exfalso. assert (X : existsb (fun u => negb (f u =? cc)) (seq 0 (m_n G)) = true); [|congruence]. apply existsb_exists. exists w. split; [apply in_seq; lia|]. apply negb_true_iff, Nat.eqb_neq. auto.
    + intros x Hx. rewrite A by auto. rewrite Po by auto. reflexivity.
  - intros (S & P & E & (b & B) & A). destruct (descend (m_n G) h (m_n H) S Cl) as (S' & D).
    { intros u v Hu Hv Q. apply (Me u v Hu Hv) in Q. destruct Q as [->|[Q1 Q2]]; [auto|]. rewrite (B u), (B v); auto. }
    exists S'. split; [|split].
    + destruct P as [(a & Ha & Sa) (d & Hd & Sd)]. split; [exists (h a)|exists (h d)]; (split; [apply Cl; auto|]); rewrite D; auto.
    + rewrite Cut, <- E. apply gcut_ext. intros. apply D. auto.
    + intros x Hx. rewrite A, Po, D; auto. apply (gd_range _ _ _ GD). auto.
Qed.

Section Merge.
Context (n : nat) (c : N) (Pc : (0 < c)%N) (G : mg) (GD : good n c G) (f : nat -> nat) (k : nat) (CL : clustering (m_n G) f k) (K2 : 2 <= k).
Context (Pre : forall i, i < k - 1 -> gcut G (fun u => f u <=? i) = c).
Let cl (x : nat) : nat := f (nth x (m_pos G) 0).

(** the cuts after the components of l have been merged *)
Definition merged (l : list nat) (S : nat -> bool) : Prop := whole (m_n G) f S \/ exists cc, In cc l /\ out_of (m_n G) f cc S.

Lemma prefix_in l i : i < k - 1 -> cuts_of n c G (merged l) (fun x => cl x <=? i).
Proof.
  intro Hi. exists (fun u => f u <=? i). split; [|split; [apply Pre; auto|split; [left; intros u w _ _ E; rewrite E; reflexivity|reflexivity]]].
  destruct CL as [_ On]. destruct (On 0 ltac:(lia)) as (a & Ha & Ea), (On (k - 1) ltac:(lia)) as (b & Hb & Eb). split; [exists a|exists b]; (split; [auto|]); [apply Nat.leb_le|apply Nat.leb_gt]; lia.
Qed.
Lemma cl_lt x : x < n -> cl x < k. Proof. intro Hx. apply CL. apply (gd_range _ _ _ GD). auto. Qed.
Lemma apart_blocks l M x y : rep n c (cuts_of n c G (merged l)) M -> x < n -> y < n -> cl x < cl y -> nth x (m_pos M) 0 <> nth y (m_pos M) 0.
Proof.
  intros R Hx Hy L.
  pose proof (cl_lt y Hy). apply (rep_differ n c _ M x y (fun z => cl z <=? cl x) R Hx Hy (prefix_in l (cl x) ltac:(lia))). cbn beta. rewrite Nat.leb_refl, (proj2 (Nat.leb_gt (cl y) (cl x))) by lia. discriminate.
Qed.

Lemma merge_one fuel l cc M NN x y : ~ In cc l -> rep n c (cuts_of n c G (merged l)) M -> rep n c (cuts_of n c G (out_of (m_n G) f cc)) NN -> x < n -> y < n -> cl x = cc -> cl y <> cc ->
  exists M', merge_graphs fuel M (nth x (m_pos M) 0) NN (nth y (m_pos NN) 0) c = Some M' /\ rep n c (cuts_of n c G (merged (cc :: l))) M'.
Proof.
  intros Nl R1 R2 Hx Hy Ex Ey. pose proof (cuts_family n c G GD (merged l)) as F1. pose proof (cuts_family n c G GD (out_of (m_n G) f cc)) as F2.
  assert (In1 : forall z, z < n -> cl z = cc -> nth z (m_pos M) 0 = nth x (m_pos M) 0).
  { intros z Hz Ez. apply (rep_same n c _ M z x Pc R1 Hz Hx). intros Y (S & _ & _ & [Wh|(d & Id & b & B)] & A); rewrite !A by auto.
    - apply Wh; try (apply (gd_range _ _ _ GD); auto). unfold cl in *. congruence.
    - assert (d <> cc) by congruence. rewrite !B; auto; try (apply (gd_range _ _ _ GD); auto); unfold cl in *; congruence. }
  assert (In2 : forall z, z < n -> cl z <> cc -> nth z (m_pos NN) 0 = nth y (m_pos NN) 0).
  { intros z Hz Nz. apply (rep_same n c _ NN z y Pc R2 Hz Hy). intros Y (S & _ & _ & (b & B) & A). rewrite !A, !B; auto; apply (gd_range _ _ _ GD); auto. }
  assert (Ex1 : forall z, z < n -> cl z <> cc -> nth z (m_pos M) 0 <> nth x (m_pos M) 0).
  { intros z Hz Nz. destruct (Nat.lt_ge_cases (cl z) (cl x)); [apply (apart_blocks l); auto|]. apply not_eq_sym. apply (apart_blocks l); auto. lia. }
  assert (Ind : forall z, z < n -> (nth z (m_pos M) 0 =? nth x (m_pos M) 0) = (cl z =? cc)).
  { intros z Hz. destruct (Nat.eqb_spec (cl z) cc) as [E|N]; [apply Nat.eqb_eq, In1; auto|apply Nat.eqb_neq, Ex1; auto]. }
  assert (Blk : forall P, cuts_of n c G P (fun z => nth z (m_pos M) 0 =? nth x (m_pos M) 0) -> proper (m_n G) (fun u => f u =? cc) /\ gcut G (fun u => f u =? cc) = c).
  { intros P (S & PS & ES & _ & A). assert (E : forall u, u < m_n G -> (f u =? cc) = S u).
    { intros u Hu. destruct (member n c G GD u Hu) as (z & Hz & Ez). rewrite <- Ez, <- A by auto. rewrite Ind by auto. reflexivity. }
    split; [|rewrite <- ES; apply gcut_ext; auto]. destruct PS as [(a & Ha & Sa) (b & Hb & Sb)]. split; [exists a|exists b]; (split; [auto|]); rewrite E; auto. }
  destruct (merge_rep n c Pc _ _ M NN R1 R2 F1 F2 (nth x (m_pos M) 0) (nth y (m_pos NN) 0) (rp_range _ _ _ _ R1 x Hx) (rp_range _ _ _ _ R2 y Hy)) with (fuel := fuel) as (M' & EM & RM).
  - intros z Hz Nz. apply In2; [auto|]. intro Q. apply Nz. apply In1; auto.
  - split; intro Q; destruct (Blk _ Q) as [B1 B2]; exists (fun u => f u =? cc); (split; [exact B1|]); (split; [exact B2|]); split; try (intros z Hz; apply Ind; auto).
    + exists false. intros w Hw Nw. apply Nat.eqb_neq. auto.
    + left. intros u w _ _ E. rewrite E. reflexivity.
  - exists M'. split; [exact EM|]. eapply rep_iff; [|intro Y|exact RM].
    + constructor; [intros Y Y' E [A|A]; [left; eapply (fa_ext _ _ F1); eauto|right; eapply (fa_ext _ _ F2); eauto]|intros Y [A|A]; [apply (fa_proper _ _ F1); auto|apply (fa_proper _ _ F2); auto]].
    + split.
      * intros [(S & A & B & [C|(d & Id & C)] & D)|(S & A & B & C & D)]; exists S; (split; [auto|]); (split; [auto|]); (split; [|auto]); [left; auto|right; exists d; split; [right; auto|auto]|right; exists cc; split; [left; auto|auto]].
      * intros (S & A & B & [C|(d & [<-|Id] & C)] & D); [left; exists S; split; [auto|]; split; [auto|]; split; [left; auto|auto]|right; exists S; auto|left; exists S; split; [auto|]; split; [auto|]; split; [right; exists d; auto|auto]].
Qed.
End Merge.
