(* Lib.v - list update, sums over N, small utilities.  Nothing here models
   VieCut; it only supports the models and proofs. *)
From Coq Require Export List Arith NArith Lia Bool Permutation.
From Coq Require Import ZifyBool ZifyNat ZifyN.
Export ListNotations.

Arguments N.add : simpl never.
Arguments N.sub : simpl never.
Arguments N.mul : simpl never.
Arguments N.eqb : simpl never.
Arguments N.ltb : simpl never.
Arguments N.leb : simpl never.

(* ------------------------------------------------------------------ *)
(** * List update *)

Fixpoint upd {A} (l : list A) (i : nat) (x : A) : list A :=
  match l, i with
  | [], _ => []
  | _ :: l', 0 => x :: l'
  | y :: l', S i' => y :: upd l' i' x
  end.

Lemma upd_length {A} (l : list A) i x : length (upd l i x) = length l.
Proof. revert i; induction l as [|y l IH]; intros [|i]; simpl; auto. Qed.

Lemma nth_upd {A} (l : list A) i x j d :
  nth j (upd l i x) d = if (j =? i) && (i <? length l) then x else nth j l d.
Proof.
  revert i j; induction l as [|y l IH]; intros [|i] [|j]; simpl; auto.
  - destruct (j =? i); reflexivity.
  - rewrite IH. reflexivity.
Qed.

Lemma nth_upd_eq {A} (l : list A) i x d : i < length l -> nth i (upd l i x) d = x.
Proof.
  intros H. rewrite nth_upd, Nat.eqb_refl. simpl.
  destruct (Nat.ltb_spec i (length l)); [reflexivity|lia].
Qed.

Lemma nth_upd_neq {A} (l : list A) i x j d : j <> i -> nth j (upd l i x) d = nth j l d.
Proof.
  intros H. rewrite nth_upd. destruct (Nat.eqb_spec j i); [contradiction|reflexivity].
Qed.

Lemma upd_out {A} (l : list A) i x : length l <= i -> upd l i x = l.
Proof. revert i; induction l as [|y l IH]; intros [|i]; simpl; intros; auto; [lia|]. now rewrite IH by lia. Qed.

Lemma upd_upd {A} (l : list A) i x y : upd (upd l i x) i y = upd l i y.
Proof. revert i; induction l as [|z l IH]; intros [|i]; simpl; auto. now rewrite IH. Qed.

Lemma upd_same {A} (l : list A) i d : upd l i (nth i l d) = l.
Proof. revert i; induction l as [|z l IH]; intros [|i]; simpl; auto. now rewrite IH. Qed.

Lemma upd_comm {A} (l : list A) i j x y : i <> j -> upd (upd l i x) j y = upd (upd l j y) i x.
Proof.
  revert i j; induction l as [|z l IH]; intros [|i] [|j]; simpl; intros H; auto; [congruence|].
  now rewrite IH by congruence.
Qed.

Lemma nth_ext_in {A} (l l' : list A) d :
  length l = length l' -> (forall i, i < length l -> nth i l d = nth i l' d) -> l = l'.
Proof. intros H1 H2. apply (nth_ext l l' d d H1). exact H2. Qed.

Lemma nth_repeat_lt {A} (a d : A) n i : i < n -> nth i (repeat a n) d = a.
Proof. revert i; induction n as [|n IH]; intros [|i] H; simpl; try lia; auto. apply IH; lia. Qed.

Lemma nth_error_nth_lt {A} (l : list A) i d : i < length l -> nth_error l i = Some (nth i l d).
Proof. intros H. apply nth_error_nth'. exact H. Qed.

Lemma upd_app_l {A} (l l' : list A) i x : i < length l -> upd (l ++ l') i x = upd l i x ++ l'.
Proof. revert i; induction l as [|z l IH]; intros [|i]; simpl; intros H; try lia; auto. now rewrite IH by lia. Qed.

Lemma upd_app_r {A} (l l' : list A) i x : length l <= i -> upd (l ++ l') i x = l ++ upd l' (i - length l) x.
Proof.
  revert i; induction l as [|z l IH]; intros i H; simpl in *.
  - now rewrite Nat.sub_0_r.
  - destruct i; [lia|]. simpl. now rewrite IH by lia.
Qed.

(* ------------------------------------------------------------------ *)
(** * Sums *)

Fixpoint sumN {A} (f : A -> N) (l : list A) : N :=
  match l with
  | [] => 0%N
  | x :: l' => (f x + sumN f l')%N
  end.

Lemma sumN_app {A} (f : A -> N) l l' : sumN f (l ++ l') = (sumN f l + sumN f l')%N.
Proof. induction l as [|x l IH]; simpl; [lia|]. rewrite IH. lia. Qed.

Lemma sumN_ext {A} (f g : A -> N) l : (forall x, In x l -> f x = g x) -> sumN f l = sumN g l.
Proof.
  induction l as [|x l IH]; simpl; intros H; [reflexivity|].
  rewrite (H x) by auto. rewrite IH; auto.
Qed.

Lemma sumN_le {A} (f g : A -> N) l : (forall x, In x l -> (f x <= g x)%N) -> (sumN f l <= sumN g l)%N.
Proof.
  induction l as [|x l IH]; simpl; intros H; [lia|].
  assert (f x <= g x)%N by auto. assert (sumN f l <= sumN g l)%N by auto. lia.
Qed.

Lemma sumN_zero {A} (f : A -> N) l : (forall x, In x l -> f x = 0%N) -> sumN f l = 0%N.
Proof.
  induction l as [|x l IH]; simpl; intros H; [reflexivity|].
  rewrite (H x) by auto. rewrite IH; auto.
Qed.

Lemma sumN_add {A} (f g : A -> N) l : sumN (fun x => f x + g x)%N l = (sumN f l + sumN g l)%N.
Proof. induction l as [|x l IH]; simpl; [lia|]. rewrite IH. lia. Qed.

Lemma sumN_mul_l {A} (c : N) (f : A -> N) l : sumN (fun x => c * f x)%N l = (c * sumN f l)%N.
Proof. induction l as [|x l IH]; simpl; [lia|]. rewrite IH. lia. Qed.

Lemma sumN_const {A} (c : N) (l : list A) : sumN (fun _ => c) l = (c * N.of_nat (length l))%N.
Proof. induction l as [|x l IH]; simpl; [lia|]. rewrite IH. lia. Qed.

Lemma sumN_swap {A B} (f : A -> B -> N) l l' :
  sumN (fun x => sumN (f x) l') l = sumN (fun y => sumN (fun x => f x y) l) l'.
Proof.
  induction l as [|x l IH]; simpl.
  - symmetry. apply sumN_zero. reflexivity.
  - rewrite IH. rewrite sumN_add. reflexivity.
Qed.

Lemma sumN_map {A B} (f : B -> N) (g : A -> B) l : sumN f (map g l) = sumN (fun x => f (g x)) l.
Proof. induction l as [|x l IH]; simpl; [reflexivity|]. now rewrite IH. Qed.

Lemma sumN_filter {A} (f : A -> N) (p : A -> bool) l :
  sumN f (filter p l) = sumN (fun x => if p x then f x else 0%N) l.
Proof. induction l as [|x l IH]; simpl; [reflexivity|]. destruct (p x); simpl; rewrite IH; lia. Qed.

Lemma sumN_split {A} (f : A -> N) (p : A -> bool) l :
  sumN f l = (sumN (fun x => if p x then f x else 0) l + sumN (fun x => if p x then 0 else f x) l)%N.
Proof. induction l as [|x l IH]; simpl; [lia|]. rewrite IH. destruct (p x); lia. Qed.

Lemma sumN_perm {A} (f : A -> N) l l' : Permutation l l' -> sumN f l = sumN f l'.
Proof. induction 1; simpl; lia. Qed.

Lemma sumN_In_le {A} (f : A -> N) l x : In x l -> (f x <= sumN f l)%N.
Proof. induction l as [|y l IH]; simpl; [easy|]. intros [->|H]; [lia|]. specialize (IH H). lia. Qed.

Lemma sumN_concat {A} (f : A -> N) (ll : list (list A)) : sumN f (concat ll) = sumN (sumN f) ll.
Proof. induction ll as [|l ll IH]; simpl; [reflexivity|]. rewrite sumN_app, IH. reflexivity. Qed.

Lemma sumN_flat_map {A B} (f : B -> N) (g : A -> list B) l :
  sumN f (flat_map g l) = sumN (fun x => sumN f (g x)) l.
Proof. induction l as [|x l IH]; simpl; [reflexivity|]. rewrite sumN_app, IH. reflexivity. Qed.

(* one index *)
Lemma sumN_single {A} (eqb : A -> A -> bool) (Heq : forall x y, eqb x y = true <-> x = y) (f : A -> N) l a :
  NoDup l -> In a l -> sumN (fun x => if eqb x a then f x else 0%N) l = f a.
Proof.
  induction l as [|x l IH]; simpl; [easy|]. intros Hnd Hin.
  apply NoDup_cons_iff in Hnd as [Hx Hnd].
  destruct (eqb x a) eqn:E.
  - apply Heq in E. subst x. rewrite sumN_zero; [lia|].
    intros y Hy. destruct (eqb y a) eqn:E2; [|reflexivity]. apply Heq in E2. subst. contradiction.
  - destruct Hin as [->|Hin].
    + assert (eqb a a = true) as E2 by (apply Heq; reflexivity). congruence.
    + rewrite IH by auto. lia.
Qed.

Lemma sumN_single_nat (f : nat -> N) l a :
  NoDup l -> In a l -> sumN (fun x => if x =? a then f x else 0%N) l = f a.
Proof. apply sumN_single. intros x y. apply Nat.eqb_eq. Qed.

Lemma sumN_single_out (f : nat -> N) l a :
  ~ In a l -> sumN (fun x => if x =? a then f x else 0%N) l = 0%N.
Proof.
  intros H. apply sumN_zero. intros x Hx. destruct (Nat.eqb_spec x a); [subst; contradiction|reflexivity].
Qed.

(* sums over [0,n) *)
Definition bsum (n : nat) (f : nat -> N) : N := sumN f (seq 0 n).

Lemma bsum_ext n f g : (forall i, i < n -> f i = g i) -> bsum n f = bsum n g.
Proof. intros H. apply sumN_ext. intros x Hx. apply H. apply in_seq in Hx. lia. Qed.

Lemma bsum_le n f g : (forall i, i < n -> (f i <= g i)%N) -> (bsum n f <= bsum n g)%N.
Proof. intros H. apply sumN_le. intros x Hx. apply H. apply in_seq in Hx. lia. Qed.

Lemma bsum_zero n f : (forall i, i < n -> f i = 0%N) -> bsum n f = 0%N.
Proof. intros H. apply sumN_zero. intros x Hx. apply H. apply in_seq in Hx. lia. Qed.

Lemma bsum_add n f g : bsum n (fun i => f i + g i)%N = (bsum n f + bsum n g)%N.
Proof. apply sumN_add. Qed.

Lemma bsum_swap n m f : bsum n (fun i => bsum m (f i)) = bsum m (fun j => bsum n (fun i => f i j)).
Proof. apply sumN_swap. Qed.

Lemma bsum_split n f (p : nat -> bool) :
  bsum n f = (bsum n (fun x => if p x then f x else 0) + bsum n (fun x => if p x then 0 else f x))%N.
Proof. apply sumN_split. Qed.

Lemma bsum_single n f a : a < n -> bsum n (fun x => if x =? a then f x else 0%N) = f a.
Proof. intros H. apply sumN_single_nat; [apply seq_NoDup|apply in_seq; lia]. Qed.

Lemma bsum_S n f : bsum (S n) f = (bsum n f + f n)%N.
Proof. unfold bsum. rewrite seq_S, sumN_app. simpl. lia. Qed.

Lemma bsum_In_le n f i : i < n -> (f i <= bsum n f)%N.
Proof. intros H. apply (sumN_In_le f (seq 0 n) i). apply in_seq; lia. Qed.

Lemma bsum_mul_l n c f : bsum n (fun i => c * f i)%N = (c * bsum n f)%N.
Proof. apply sumN_mul_l. Qed.

(* pull an if out of a sum *)
Lemma bsum_if n (b : bool) f : bsum n (fun i => if b then f i else 0%N) = if b then bsum n f else 0%N.
Proof. destruct b; [reflexivity|]. apply bsum_zero. reflexivity. Qed.

(* minimum over a non-empty list given by head and tail *)
Fixpoint min_list (d : N) (l : list N) : N :=
  match l with [] => d | x :: l' => N.min x (min_list d l') end.

Lemma min_list_le d l x : In x l -> (min_list d l <= x)%N.
Proof. induction l as [|y l IH]; simpl; [easy|]. intros [->|H]; [lia|]. specialize (IH H). lia. Qed.

Lemma min_list_le_d d l : (min_list d l <= d)%N.
Proof. induction l as [|y l IH]; simpl; lia. Qed.

Lemma min_list_in d l : min_list d l = d \/ In (min_list d l) l.
Proof.
  induction l as [|y l IH]; simpl; [auto|].
  destruct (N.min_spec y (min_list d l)) as [[H ->]|[H ->]]; [auto|].
  destruct IH; auto.
Qed.

Lemma existsb_false {A} (f : A -> bool) l : existsb f l = false <-> forall x, In x l -> f x = false.
Proof.
  split.
  - intros H x Hx. destruct (f x) eqn:E; [|reflexivity].
    assert (existsb f l = true) by (apply existsb_exists; eauto). congruence.
  - intros H. destruct (existsb f l) eqn:E; [|reflexivity].
    apply existsb_exists in E as (x & Hx & E). rewrite H in E by assumption. discriminate.
Qed.
