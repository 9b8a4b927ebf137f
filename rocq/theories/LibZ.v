(* LibZ.v - sums of integers over [0,n). *)
From Verif Require Export Lib.
Require Export ZArith.

Definition zs (l : list nat) (f : nat -> Z) : Z := fold_right (fun x a => (f x + a)%Z) 0%Z l.
Definition zsum (n : nat) (f : nat -> Z) : Z := zs (seq 0 n) f.

Lemma zs_ext l f g : (forall x, In x l -> f x = g x) -> zs l f = zs l g.
Proof. induction l as [|x l IH]; simpl; intro H; [reflexivity|]. rewrite H, IH by auto. reflexivity. Qed.
Lemma zs_add l f g : zs l (fun x => f x + g x)%Z = (zs l f + zs l g)%Z.
Proof. induction l as [|x l IH]; simpl; [reflexivity|]. rewrite IH. lia. Qed.
Lemma zs_opp l f : zs l (fun x => - f x)%Z = (- zs l f)%Z.
Proof. induction l as [|x l IH]; simpl; [reflexivity|]. rewrite IH. lia. Qed.
Lemma zs_zero l f : (forall x, In x l -> f x = 0%Z) -> zs l f = 0%Z.
Proof. induction l as [|x l IH]; simpl; intro H; [reflexivity|]. rewrite H, IH by auto. reflexivity. Qed.
Lemma zs_le l f g : (forall x, In x l -> (f x <= g x)%Z) -> (zs l f <= zs l g)%Z.
Proof.
  induction l as [|x l IH]; simpl; intro H; [lia|]. pose proof (H x (or_introl eq_refl)).
  assert (zs l f <= zs l g)%Z by (apply IH; auto). lia.
Qed.
Lemma zs_swap l m f : zs l (fun x => zs m (f x)) = zs m (fun y => zs l (fun x => f x y)).
Proof.
  induction l as [|x l IH]; simpl; [rewrite zs_zero; auto|]. rewrite IH, <- zs_add. reflexivity.
Qed.
Lemma zs_app l m f : zs (l ++ m) f = (zs l f + zs m f)%Z.
Proof. induction l as [|x l IH]; simpl; [reflexivity|]. rewrite IH. lia. Qed.
Lemma zs_sumN l (f : nat -> N) : zs l (fun x => Z.of_N (f x)) = Z.of_N (sumN f l).
Proof. induction l as [|x l IH]; simpl; [reflexivity|]. rewrite IH. lia. Qed.
Lemma zs_single l a (f : nat -> Z) : NoDup l -> In a l -> zs l (fun x => if x =? a then f x else 0%Z) = f a.
Proof.
  induction l as [|x l IH]; simpl; [easy|]. intros Nd Hin. apply NoDup_cons_iff in Nd as [Hx Nd].
  destruct (Nat.eqb_spec x a) as [->|E].
  - rewrite zs_zero; [lia|]. intros y Hy. destruct (Nat.eqb_spec y a); [subst; contradiction|reflexivity].
  - destruct Hin as [->|Hin]; [easy|]. rewrite IH by auto. lia.
Qed.

Lemma zsum_ext n f g : (forall i, i < n -> f i = g i) -> zsum n f = zsum n g.
Proof. intro H. apply zs_ext. intros x Hx. apply in_seq in Hx. apply H. lia. Qed.
Lemma zsum_add n f g : zsum n (fun x => f x + g x)%Z = (zsum n f + zsum n g)%Z.
Proof. apply zs_add. Qed.
Lemma zsum_opp n f : zsum n (fun x => - f x)%Z = (- zsum n f)%Z.
Proof. apply zs_opp. Qed.
Lemma zsum_sub n f g : zsum n (fun x => f x - g x)%Z = (zsum n f - zsum n g)%Z.
Proof.
  transitivity (zsum n (fun x => f x + - g x)%Z); [apply zsum_ext; intros; lia|]. rewrite zsum_add, zsum_opp. lia.
Qed.
Lemma zsum_zero n f : (forall i, i < n -> f i = 0%Z) -> zsum n f = 0%Z.
Proof. intro H. apply zs_zero. intros x Hx. apply in_seq in Hx. apply H. lia. Qed.
Lemma zsum_le n f g : (forall i, i < n -> (f i <= g i)%Z) -> (zsum n f <= zsum n g)%Z.
Proof. intro H. apply zs_le. intros x Hx. apply in_seq in Hx. apply H. lia. Qed.
Lemma zsum_swap n m f : zsum n (fun x => zsum m (f x)) = zsum m (fun y => zsum n (fun x => f x y)).
Proof. apply zs_swap. Qed.
Lemma zsum_bsum n (f : nat -> N) : zsum n (fun x => Z.of_N (f x)) = Z.of_N (bsum n f).
Proof. apply zs_sumN. Qed.
Lemma zsum_single n a (f : nat -> Z) : a < n -> zsum n (fun x => if x =? a then f x else 0%Z) = f a.
Proof. intro H. apply zs_single; [apply seq_NoDup|apply in_seq; lia]. Qed.
Lemma zsum_nonneg n f : (forall i, i < n -> (0 <= f i)%Z) -> (0 <= zsum n f)%Z.
Proof. intro H. rewrite <- (zsum_zero n (fun _ => 0%Z)) by auto. apply zsum_le. auto. Qed.
Lemma zsum_if n (b : bool) f : zsum n (fun i => if b then f i else 0%Z) = if b then zsum n f else 0%Z.
Proof. destruct b; [reflexivity|]. apply zsum_zero. auto. Qed.

(* change one term *)
Lemma zsum_upd1 n a f g x : a < n -> (forall i, i < n -> i <> a -> g i = f i) -> g a = (f a + x)%Z ->
  zsum n g = (zsum n f + x)%Z.
Proof.
  intros Ha H H0. rewrite (zsum_ext n g (fun i : nat => (f i + (if Nat.eqb i a then x else 0))%Z)).
  - rewrite zsum_add, (zsum_single n a (fun _ => x)) by auto. reflexivity.
  - intros i Hi. destruct (Nat.eqb_spec i a) as [->|E]; [auto|]. rewrite H by auto. lia.
Qed.

Lemma zsum_pos n f : (forall i, i < n -> (0 <= f i)%Z) -> zsum n f = 0%Z -> forall i, i < n -> f i = 0%Z.
Proof.
  intros H Z0 i Hi. pose proof (H i Hi).
  assert (E : zsum n (fun j => if j =? i then 0%Z else f j) = (zsum n f + (- f i))%Z).
  { apply zsum_upd1 with (a := i); auto.
    - intros j _ Nj. destruct (Nat.eqb_spec j i); congruence.
    - rewrite Nat.eqb_refl. lia. }
  assert (0 <= zsum n (fun j => if Nat.eqb j i then 0%Z else f j))%Z.
  { apply zsum_nonneg. intros j Hj. destruct (j =? i); [lia|auto]. }
  lia.
Qed.
