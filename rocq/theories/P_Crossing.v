(* P_Crossing.v - weight between two vertex sets, crossing minimum cuts, and chains of minimum cuts. *)
From Verif Require Import SpecCut SpecDyn P_Cut.

Definition btw (n : nat) (W : wfun) (X Y : nat -> bool) : N :=
  bsum n (fun u => bsum n (fun v => if X u && Y v then W u v else 0%N)).

Section Btw.
Context (n : nat) (W : wfun).
Lemma cutw_btw S : cutw n W S = btw n W S (fun v => negb (S v)).
Proof. reflexivity. Qed.
Lemma btw_ext X X' Y Y' : (forall u, u < n -> X u = X' u) -> (forall u, u < n -> Y u = Y' u) -> btw n W X Y = btw n W X' Y'.
Proof. intros A B. apply bsum_ext. intros u Hu. apply bsum_ext. intros v Hv. rewrite A, B by auto. reflexivity. Qed.
Lemma btw_l X X1 X2 Y : (forall u, u < n -> Nat.b2n (X u) = Nat.b2n (X1 u) + Nat.b2n (X2 u)) -> btw n W X Y = (btw n W X1 Y + btw n W X2 Y)%N.
Proof.
  intro A. unfold btw. rewrite <- bsum_add. apply bsum_ext. intros u Hu. rewrite <- bsum_add. apply bsum_ext. intros v Hv.
  specialize (A u Hu). destruct (X u), (X1 u), (X2 u), (Y v); cbn in *; lia.
Qed.
Lemma btw_r X Y Y1 Y2 : (forall u, u < n -> Nat.b2n (Y u) = Nat.b2n (Y1 u) + Nat.b2n (Y2 u)) -> btw n W X Y = (btw n W X Y1 + btw n W X Y2)%N.
Proof.
  intro A. unfold btw. rewrite <- bsum_add. apply bsum_ext. intros u Hu. rewrite <- bsum_add. apply bsum_ext. intros v Hv.
  specialize (A v Hv). destruct (X u), (Y v), (Y1 v), (Y2 v); cbn in *; lia.
Qed.
Lemma btw_sym X Y : symm n W -> btw n W X Y = btw n W Y X.
Proof.
  intro Sy. unfold btw. rewrite bsum_swap. apply bsum_ext. intros u Hu. apply bsum_ext. intros v Hv. rewrite (Sy v u) by auto. rewrite andb_comm. reflexivity.
Qed.
Lemma btw_le X X' Y Y' : (forall u, u < n -> X u = true -> X' u = true) -> (forall u, u < n -> Y u = true -> Y' u = true) -> (btw n W X Y <= btw n W X' Y')%N.
Proof.
  intros A B. apply bsum_le. intros u Hu. apply bsum_le. intros v Hv. specialize (A u Hu). specialize (B v Hv).
  destruct (X u), (Y v); cbn; try lia. rewrite A, B by auto. cbn. lia.
Qed.
Lemma btw_one X Y u v : u < n -> v < n -> X u = true -> Y v = true -> (W u v <= btw n W X Y)%N.
Proof.
  intros Hu Hv A B. unfold btw. eapply N.le_trans; [|apply (bsum_In_le n (fun u => bsum n (fun v => if X u && Y v then W u v else 0%N)) u Hu)].
  eapply N.le_trans; [|apply (bsum_In_le n (fun v => if X u && Y v then W u v else 0%N) v Hv)]. rewrite A, B. cbn. lia.
Qed.

(** the six weights between the four parts of two sets *)
Definition c11 (A B : nat -> bool) v := A v && B v.
Definition c10 (A B : nat -> bool) v := A v && negb (B v).
Definition c01 (A B : nat -> bool) v := negb (A v) && B v.
Definition c00 (A B : nat -> bool) v := negb (A v) && negb (B v).

Lemma cut_parts S P1 P2 Q1 Q2 : (forall u, u < n -> Nat.b2n (S u) = Nat.b2n (P1 u) + Nat.b2n (P2 u)) -> (forall u, u < n -> Nat.b2n (negb (S u)) = Nat.b2n (Q1 u) + Nat.b2n (Q2 u)) ->
  cutw n W S = (btw n W P1 Q1 + btw n W P1 Q2 + (btw n W P2 Q1 + btw n W P2 Q2))%N.
Proof. intros A B. rewrite cutw_btw, (btw_l S P1 P2) by auto. rewrite (btw_r P1 _ Q1 Q2), (btw_r P2 _ Q1 Q2) by auto. reflexivity. Qed.
Lemma cut_parts3 S Q1 Q2 Q3 : (forall u, u < n -> Nat.b2n (negb (S u)) = Nat.b2n (Q1 u) + Nat.b2n (Q2 u) + Nat.b2n (Q3 u)) ->
  cutw n W S = (btw n W S Q1 + btw n W S Q2 + btw n W S Q3)%N.
Proof.
  intros A. rewrite cutw_btw. rewrite (btw_r S _ (fun u => Q1 u || Q2 u) Q3), (btw_r S _ Q1 Q2); auto.
  - intros u Hu. specialize (A u Hu). destruct (Q1 u), (Q2 u), (Q3 u), (S u); cbn in *; lia.
  - intros u Hu. specialize (A u Hu). destruct (Q1 u), (Q2 u), (Q3 u), (S u); cbn in *; lia.
Qed.

Lemma six (Sy : symm n W) A B : let x := btw n W in let a := c11 A B in let b := c10 A B in let c := c01 A B in let d := c00 A B in
  cutw n W A = (x a c + x a d + (x b c + x b d))%N /\ cutw n W B = (x a b + x a d + (x b c + x c d))%N /\
  cutw n W a = (x a b + x a c + x a d)%N /\ cutw n W b = (x a b + x b c + x b d)%N /\ cutw n W c = (x a c + x b c + x c d)%N /\ cutw n W d = (x a d + x b d + x c d)%N.
Proof.
  intros x a b c d. unfold x.
  assert (T : forall u, A u = A u) by reflexivity.
  split; [|split; [|split; [|split; [|split]]]].
  - apply cut_parts; intros u _; unfold a, b, c, d, c11, c10, c01, c00; destruct (A u), (B u); cbn; lia.
  - rewrite (cut_parts B a c b d); [rewrite (btw_sym c b) by auto; lia| |]; intros u _; unfold a, b, c, d, c11, c10, c01, c00; destruct (A u), (B u); cbn; lia.
  - apply cut_parts3; intros u _; unfold a, b, c, d, c11, c10, c01, c00; destruct (A u), (B u); cbn; lia.
  - rewrite (cut_parts3 b a c d); [rewrite (btw_sym b a) by auto; lia|]; intros u _; unfold a, b, c, d, c11, c10, c01, c00; destruct (A u), (B u); cbn; lia.
  - rewrite (cut_parts3 c a b d); [rewrite (btw_sym c a), (btw_sym c b) by auto; lia|]; intros u _; unfold a, b, c, d, c11, c10, c01, c00; destruct (A u), (B u); cbn; lia.
  - rewrite (cut_parts3 d a b c); [rewrite (btw_sym d a), (btw_sym d b), (btw_sym d c) by auto; lia|]; intros u _; unfold a, b, c, d, c11, c10, c01, c00; destruct (A u), (B u); cbn; lia.
Qed.
End Btw.

(** both parts of a set S that is neither empty nor everything *)
Lemma proper_at n S u v : u < n -> v < n -> S u = true -> S v = false -> proper n S.
Proof. intros. split; [exists u|exists v]; auto. Qed.

(** crossing minimum cuts form a cycle of four parts *)
Record square (n : nat) (W : wfun) (c : N) (A B : nat -> bool) : Prop := {
  sq_11 : cutw n W (c11 A B) = c; sq_10 : cutw n W (c10 A B) = c; sq_01 : cutw n W (c01 A B) = c; sq_00 : cutw n W (c00 A B) = c;
  sq_d1 : btw n W (c11 A B) (c00 A B) = 0%N; sq_d2 : btw n W (c10 A B) (c01 A B) = 0%N;
  sq_s1 : (2 * btw n W (c11 A B) (c10 A B) = c)%N; sq_s2 : (2 * btw n W (c11 A B) (c01 A B) = c)%N;
  sq_s3 : (2 * btw n W (c10 A B) (c00 A B) = c)%N; sq_s4 : (2 * btw n W (c01 A B) (c00 A B) = c)%N }.

Lemma crossing_square n W c A B x y z t : symm n W -> atleast c n W -> cutw n W A = c -> cutw n W B = c ->
  x < n -> A x = true -> B x = true -> y < n -> A y = true -> B y = false -> z < n -> A z = false -> B z = true -> t < n -> A t = false -> B t = false -> square n W c A B.
Proof.
  intros Sy Al CA CB Hx Ax Bx Hy Ay By Hz Az Bz Ht At Bt.
  destruct (six n W Sy A B) as (E1 & E2 & E3 & E4 & E5 & E6). cbv zeta in *.
  assert (P1 : (c <= cutw n W (c11 A B))%N) by (apply Al, (proper_at n _ x y); auto; unfold c11; [rewrite Ax, Bx|rewrite Ay, By]; auto).
  assert (P2 : (c <= cutw n W (c10 A B))%N) by (apply Al, (proper_at n _ y x); auto; unfold c10; [rewrite Ay, By|rewrite Ax, Bx]; auto).
  assert (P3 : (c <= cutw n W (c01 A B))%N) by (apply Al, (proper_at n _ z x); auto; unfold c01; [rewrite Az, Bz|rewrite Ax, Bx]; auto).
  assert (P4 : (c <= cutw n W (c00 A B))%N) by (apply Al, (proper_at n _ t x); auto; unfold c00; [rewrite At, Bt|rewrite Ax, Bx]; auto).
  clear - E1 E2 E3 E4 E5 E6 P1 P2 P3 P4 CA CB. constructor; lia.
Qed.
