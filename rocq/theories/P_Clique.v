(* P_Clique.v - a clique whose members have little weight to the outside can be kept in one block: exchange argument for
   maximal_clique.h:220-291. *)
From Coq Require Import Permutation.
From Verif Require Import SpecRel P_Cut P_Multi.

Definition inb (c : list nat) (v : nat) : bool := existsb (Nat.eqb v) c.
Lemma inb_In c v : inb c v = true <-> In v c.
Proof. unfold inb. rewrite existsb_exists. split; [intros (x & I & E); apply Nat.eqb_eq in E; subst; auto|intro I; exists v; split; [auto|apply Nat.eqb_refl]]. Qed.
Lemma inb_out c v : inb c v = false <-> ~ In v c.
Proof. rewrite <- inb_In. destruct (inb c v); split; congruence. Qed.
Lemma bsum_in n (F : nat -> N) : forall c, NoDup c -> (forall x, In x c -> x < n) -> bsum n (fun u => if inb c u then F u else 0%N) = sumN F c.
Proof.
  induction c as [|a c IH]; intros ND H; [cbn; apply bsum_zero; auto|]. inversion ND as [|? ? Na ND']. subst. cbn [sumN]. rewrite <- IH by (auto; intros x I; apply H; right; auto).
  rewrite <- (bsum_single n F a) by (apply H; left; auto). rewrite <- bsum_add. apply bsum_ext. intros u Hu. unfold inb at 1. cbn [existsb]. fold (inb c u). destruct (Nat.eqb_spec u a) as [->|].
  - cbn [orb]. apply inb_out in Na. rewrite Na. lia.
  - reflexivity.
Qed.

Section Clique.
Context (n : nat) (W : wfun) (Sy : symm n W) (c : list nat) (ND : NoDup c) (Rg : forall x, In x c -> x < n).
Context (mw : N) (Hmw : forall x y, In x c -> In y c -> x <> y -> (mw <= W x y)%N).

(** all of c in block k *)
Definition put (k : nat) (f : nat -> nat) : nat -> nat := fun v => if inb c v then k else f v.
(** weight from x to vertices outside c in the block of x *)
Definition loose (f : nat -> nat) (x : nat) : N := bsum n (fun v => if negb (inb c v) && Nat.eqb (f x) (f v) then W x v else 0%N).
(** weight between members of c in different blocks, both directions *)
Definition torn (f : nat -> nat) : N := sumN (fun x => sumN (fun y => if Nat.eqb (f x) (f y) then 0%N else W x y) c) c.

Lemma put_cost f k : (dcost n W (put k f) + torn f <= dcost n W f + 2 * sumN (fun x => if Nat.eqb (f x) k then 0%N else loose f x) c)%N.
Proof.
  set (L := fun u v => if inb c u && negb (Nat.eqb (f u) k) && (negb (inb c v) && Nat.eqb (f u) (f v)) then W u v else 0%N).
  assert (T : torn f = bsum n (fun u => bsum n (fun v => if inb c u && inb c v && negb (Nat.eqb (f u) (f v)) then W u v else 0%N))).
  { unfold torn. rewrite <- (bsum_in n _ c ND Rg). apply bsum_ext. intros u Hu. destruct (inb c u) eqn:E; cbn [andb]; [|symmetry; apply bsum_zero; auto].
    rewrite <- (bsum_in n _ c ND Rg). apply bsum_ext. intros v Hv. destruct (inb c v); cbn [andb]; [|auto]. destruct (f u =? f v); reflexivity. }
  assert (S1 : sumN (fun x => if Nat.eqb (f x) k then 0%N else loose f x) c = bsum n (fun u => bsum n (fun v => L u v))).
  { rewrite <- (bsum_in n _ c ND Rg). apply bsum_ext. intros u Hu. unfold L, loose. destruct (inb c u); cbn [andb]; [|symmetry; apply bsum_zero; auto].
    destruct (f u =? k); cbn [andb negb]; [symmetry; apply bsum_zero; auto|reflexivity]. }
  assert (S2 : bsum n (fun u => bsum n (fun v => L u v)) = bsum n (fun u => bsum n (fun v => L v u))) by apply (bsum_swap n n L).
  rewrite T, S1. replace (2 * bsum n (fun u => bsum n (fun v => L u v)))%N with (bsum n (fun u => bsum n (fun v => L u v)) + bsum n (fun u => bsum n (fun v => L v u)))%N by lia.
  unfold dcost. rewrite <- !bsum_add. apply bsum_le. intros u Hu. rewrite <- !bsum_add. apply bsum_le. intros v Hv. pose proof (Sy u v Hu Hv) as Suv. unfold L, put.
  destruct (inb c u) eqn:Cu, (inb c v) eqn:Cv; cbn [andb negb]; rewrite ?Nat.eqb_refl.
  - destruct (f u =? f v); cbn; lia.
  - destruct (Nat.eqb_spec (f u) (f v)) as [E|E], (Nat.eqb_spec (f u) k), (Nat.eqb_spec k (f v)); cbn; lia.
  - rewrite (Nat.eqb_sym (f v) (f u)). destruct (Nat.eqb_spec (f u) (f v)) as [E|E], (Nat.eqb_spec (f v) k), (Nat.eqb_spec (f u) k); cbn; lia.
  - destruct (f u =? f v); lia.
Qed.

(** a list with two, three chosen members *)
Lemma pick2 (x y : nat) : In x c -> In y c -> x <> y -> exists r, Permutation c (x :: y :: r).
Proof.
  intros Ix Iy Nxy. apply in_split in Ix as (l1 & l2 & E). assert (P : Permutation c (x :: l1 ++ l2)) by (rewrite E; symmetry; apply Permutation_middle).
  assert (I2 : In y (l1 ++ l2)). { apply (Permutation_in _ P) in Iy. destruct Iy as [|]; [congruence|auto]. }
  apply in_split in I2 as (l3 & l4 & E2). exists (l3 ++ l4). rewrite P, E2. constructor. symmetry. apply Permutation_middle.
Qed.
Lemma pick3 (x y z : nat) : In x c -> In y c -> In z c -> x <> y -> x <> z -> y <> z -> exists r, Permutation c (x :: y :: z :: r).
Proof.
  intros Ix Iy Iz Nxy Nxz Nyz. destruct (pick2 x y Ix Iy Nxy) as (r & P). assert (I2 : In z r). { apply (Permutation_in _ P) in Iz. destruct Iz as [|[|]]; [congruence|congruence|auto]. }
  apply in_split in I2 as (l3 & l4 & E2). exists (l3 ++ l4). rewrite P, E2. do 2 constructor. symmetry. apply Permutation_middle.
Qed.
Definition tp (f : nat -> nat) (x y : nat) : N := if Nat.eqb (f x) (f y) then 0%N else W x y.
Lemma torn_perm f r : Permutation c r -> torn f = sumN (fun x => sumN (tp f x) r) r.
Proof. intro P. unfold torn. rewrite (sumN_perm _ _ _ P). apply sumN_ext. intros x _. apply (sumN_perm _ _ _ P). Qed.
Lemma tp_ge f x y : In x c -> In y c -> f x <> f y -> (mw <= tp f x y)%N.
Proof. intros Ix Iy D. unfold tp. destruct (Nat.eqb_spec (f x) (f y)); [congruence|]. apply Hmw; auto. Qed.
Lemma sum_ge {A} (F : A -> N) (b : N) l : (forall x, In x l -> (b <= F x)%N) -> (b * N.of_nat (length l) <= sumN F l)%N.
Proof. intro H. rewrite <- sumN_const. apply sumN_le. auto. Qed.

Lemma torn2 f x y : In x c -> In y c -> f x <> f y -> (2 * mw * N.of_nat (length c - 1) <= torn f)%N.
Proof.
  intros Ix Iy D. destruct (pick2 x y Ix Iy ltac:(congruence)) as (r & P). rewrite (torn_perm f _ P). assert (Ir : forall v, In v r -> In v c) by (intros v I; apply (Permutation_in _ (Permutation_sym P)); right; right; auto).
  rewrite (Permutation_length P). cbn [sumN length].
  assert (G1 : (mw * N.of_nat (length r) <= sumN (tp f x) r + sumN (tp f y) r)%N).
  { rewrite <- sumN_add. apply sum_ge. intros v I. destruct (Nat.eq_dec (f x) (f v)) as [E|E]; [pose proof (tp_ge f y v Iy (Ir v I) ltac:(congruence)); lia|pose proof (tp_ge f x v Ix (Ir v I) E); lia]. }
  assert (G2 : (mw * N.of_nat (length r) <= sumN (fun v => tp f v x + (tp f v y + sumN (tp f v) r))%N r)%N).
  { apply sum_ge. intros v I. destruct (Nat.eq_dec (f x) (f v)) as [E|E]; [pose proof (tp_ge f v y (Ir v I) Iy ltac:(congruence)); lia|pose proof (tp_ge f v x (Ir v I) Ix ltac:(congruence)); lia]. }
  pose proof (tp_ge f x y Ix Iy D). pose proof (tp_ge f y x Iy Ix ltac:(congruence)).
  replace (2 * mw * N.of_nat (S (S (length r)) - 1))%N with (mw * N.of_nat (length r) + mw * N.of_nat (length r) + mw + mw)%N by lia. lia.
Qed.
Lemma torn3 f x y z : In x c -> In y c -> In z c -> f x <> f y -> f x <> f z -> f y <> f z -> 3 <= length c /\ (4 * mw * N.of_nat (length c - 1) <= torn f + 2 * mw)%N.
Proof.
  intros Ix Iy Iz D1 D2 D3. destruct (pick3 x y z Ix Iy Iz ltac:(congruence) ltac:(congruence) ltac:(congruence)) as (r & P). rewrite (torn_perm f _ P). assert (Ir : forall v, In v r -> In v c) by (intros v I; apply (Permutation_in _ (Permutation_sym P)); right; right; right; auto).
  rewrite (Permutation_length P). cbn [sumN length]. split; [lia|].
  assert (G1 : (2 * mw * N.of_nat (length r) <= sumN (tp f x) r + (sumN (tp f y) r + sumN (tp f z) r))%N).
  { rewrite <- !sumN_add. apply sum_ge. intros v I. pose proof (tp_ge f x v Ix (Ir v I)). pose proof (tp_ge f y v Iy (Ir v I)). pose proof (tp_ge f z v Iz (Ir v I)).
    destruct (Nat.eq_dec (f x) (f v)) as [E|E]; [|destruct (Nat.eq_dec (f y) (f v)) as [E2|E2]].
    - assert (f y <> f v) by congruence. assert (f z <> f v) by congruence. specialize (H0 ltac:(auto)). specialize (H1 ltac:(auto)). lia.
    - assert (f z <> f v) by congruence. specialize (H E). specialize (H1 ltac:(auto)). lia.
    - specialize (H E). specialize (H0 E2). lia. }
  assert (G2 : (2 * mw * N.of_nat (length r) <= sumN (fun v => tp f v x + (tp f v y + (tp f v z + sumN (tp f v) r)))%N r)%N).
  { apply sum_ge. intros v I. pose proof (tp_ge f v x (Ir v I) Ix). pose proof (tp_ge f v y (Ir v I) Iy). pose proof (tp_ge f v z (Ir v I) Iz).
    destruct (Nat.eq_dec (f v) (f x)) as [E|E]; [|destruct (Nat.eq_dec (f v) (f y)) as [E2|E2]].
    - assert (f v <> f y) by congruence. assert (f v <> f z) by congruence. specialize (H0 ltac:(auto)). specialize (H1 ltac:(auto)). lia.
    - assert (f v <> f z) by congruence. specialize (H E). specialize (H1 ltac:(auto)). lia.
    - specialize (H E). specialize (H0 E2). lia. }
  pose proof (tp_ge f x y Ix Iy D1). pose proof (tp_ge f y x Iy Ix ltac:(congruence)). pose proof (tp_ge f x z Ix Iz D2). pose proof (tp_ge f z x Iz Ix ltac:(congruence)). pose proof (tp_ge f y z Iy Iz D3). pose proof (tp_ge f z y Iz Iy ltac:(congruence)).
  replace (4 * mw * N.of_nat (S (S (S (length r))) - 1))%N with (2 * mw * N.of_nat (length r) + 2 * mw * N.of_nat (length r) + 8 * mw)%N by lia. lia.
Qed.

(** weight to the outside *)
Context (ext : N) (Hext : ext = sumN (fun x => bsum n (fun v => if inb c v then 0%N else W x v)) c).
Lemma loose_sum f : (sumN (loose f) c <= ext)%N.
Proof. rewrite Hext. apply sumN_le. intros x I. unfold loose. apply bsum_le. intros v Hv. destruct (inb c v); cbn; [lia|]. destruct (f x =? f v); lia. Qed.

Lemma arg_max (T : nat -> N) (l : list nat) : l <> [] -> exists x, In x l /\ forall y, In y l -> (T y <= T x)%N.
Proof.
  induction l as [|a l IH]; [congruence|]. intros _. destruct l as [|b l]; [exists a; split; [left; auto|intros y [<-|[]]; lia]|]. destruct IH as (x & Ix & H); [discriminate|].
  destruct (N.le_gt_cases (T a) (T x)); [exists x; split; [right; auto|intros y [<-|I]; auto]|exists a; split; [left; auto|intros y [<-|I]; [lia|specialize (H y I); lia]]].
Qed.

(** the key step: a torn clique can be put into one of its blocks, cheaper, or at the same cost and into a block with a smaller number *)
Lemma clique_step f : (0 < mw)%N -> (ext <= 2 * mw * N.of_nat (length c - 1))%N -> (exists x y, In x c /\ In y c /\ f x <> f y) ->
  exists k, (exists x, In x c /\ f x = k) /\ ((mtcost n W (put k f) < mtcost n W f)%N \/ ((mtcost n W (put k f) <= mtcost n W f)%N /\ (forall x, In x c -> k <= f x) /\ exists x, In x c /\ f x <> k)).
Proof.
  intros Pm Le (x0 & y0 & Ix0 & Iy0 & D0). set (T := fun x => sumN (fun z => if Nat.eqb (f z) (f x) then loose f z else 0%N) c).
  assert (Ne : c <> []) by (intro Z; rewrite Z in Ix0; destruct Ix0). destruct (arg_max T c Ne) as (x & Ix & Mx).
  pose proof (loose_sum f) as LS. set (m := N.of_nat (length c - 1)) in *.
  assert (Split : forall x, sumN (loose f) c = (T x + sumN (fun z => if Nat.eqb (f z) (f x) then 0%N else loose f z) c)%N).
  { intro z. unfold T. rewrite <- sumN_add. apply sumN_ext. intros v _. destruct (f v =? f z); lia. }
  assert (Cost : forall x, (2 * mtcost n W (put (f x) f) + torn f + 2 * T x <= 2 * mtcost n W f + 2 * sumN (loose f) c)%N).
  { intro z. pose proof (put_cost f (f z)) as H. rewrite !dcost_half in H by auto. rewrite (Split z). lia. }
  assert (exists y, In y c /\ f y <> f x) as (y & Iy & Dy). { destruct (Nat.eq_dec (f x0) (f x)) as [E|E]; [exists y0; split; [auto|congruence]|exists x0; auto]. }
  pose proof (torn2 f x y Ix Iy ltac:(congruence)) as T2. fold m in T2.
  destruct (existsb (fun z => negb (f z =? f x) && negb (f z =? f y)) c) eqn:Ez.
  - apply existsb_exists in Ez as (z & Iz & E). apply andb_true_iff in E as [E1 E2]. apply negb_true_iff, Nat.eqb_neq in E1, E2.
    destruct (torn3 f x y z Ix Iy Iz) as [L3 T3]; auto. fold m in T3. exists (f x). split; [exists x; auto|]. left. pose proof (Cost x) as C.
    destruct (N.le_gt_cases (T x) mw) as [Lx|Gx].
    + assert (B : (sumN (fun z => if Nat.eqb (f z) (f x) then 0%N else loose f z) c <= mw * m)%N).
      { destruct (in_split _ _ Ix) as (l1 & l2 & Ec). assert (P : Permutation c (x :: l1 ++ l2)) by (rewrite Ec at 1; symmetry; apply Permutation_middle).
        rewrite (sumN_perm _ _ _ P). cbn [sumN]. rewrite Nat.eqb_refl, N.add_0_l. assert (Em : m = N.of_nat (length (l1 ++ l2))) by (unfold m; rewrite (Permutation_length P); cbn [length]; f_equal; lia).
        rewrite Em, <- sumN_const. apply sumN_le. intros v Iv. destruct (f v =? f x); [lia|]. assert (Icv : In v c) by (apply (Permutation_in _ (Permutation_sym P)); right; auto).
        pose proof (Mx v Icv) as M1. assert (loose f v <= T v)%N; [|lia]. unfold T. pose proof (sumN_In_le (fun z => if Nat.eqb (f z) (f v) then loose f z else 0%N) c v Icv) as Q. cbn beta in Q. rewrite Nat.eqb_refl in Q. exact Q. }
      pose proof (Split x) as Sp. assert (Hm : (2 <= m)%N) by (unfold m; lia). assert (mw * 2 <= mw * m)%N by (apply N.mul_le_mono_l; auto). nia.
    + nia.
  - assert (Two : forall z, In z c -> f z = f x \/ f z = f y).
    { intros z I. destruct (Nat.eq_dec (f z) (f x)) as [|N1]; [auto|]. destruct (Nat.eq_dec (f z) (f y)) as [|N2]; [auto|]. exfalso. assert (X : existsb (fun z => negb (f z =? f x) && negb (f z =? f y)) c = true); [|congruence].
      apply existsb_exists. exists z. split; [auto|]. apply Nat.eqb_neq in N1, N2. rewrite N1, N2. reflexivity. }
    assert (Txy : sumN (loose f) c = (T x + T y)%N).
    { rewrite (Split x). f_equal. unfold T. apply sumN_ext. intros z I. destruct (Two z I) as [E|E]; rewrite E; rewrite ?Nat.eqb_refl.
      - destruct (Nat.eqb_spec (f x) (f y)); [congruence|reflexivity].
      - destruct (Nat.eqb_spec (f y) (f x)); [congruence|reflexivity]. }
    pose proof (Cost x) as Cx. pose proof (Cost y) as Cy. pose proof (Mx y Iy) as Myx. set (X := (mw * m)%N) in *. replace (2 * mw * m)%N with (2 * X)%N in * by (unfold X; lia).
    destruct (N.lt_ge_cases (mtcost n W (put (f x) f)) (mtcost n W f)) as [Lt|Ge]; [exists (f x); split; [exists x; auto|left; auto]|].
    destruct (Nat.lt_ge_cases (f x) (f y)) as [Lk|Gk].
    + exists (f x). split; [exists x; auto|]. right. split; [lia|]. split; [intros z I; destruct (Two z I); lia|exists y; auto].
    + exists (f y). split; [exists y; auto|]. right. split; [lia|]. split; [intros z I; destruct (Two z I); lia|exists x; split; auto].
Qed.
End Clique.
