(* P_Merge4.v - proofs about mergeGraphs, part 4: graphs in which any two vertices are separated by a minimum cut and all weights are
   multiples of half of it: junctions. *)
From Verif Require Import SpecCut SpecDyn P_Cut P_Crossing.

Lemma btw_empty n W X Y : (forall u, u < n -> X u = false) -> btw n W X Y = 0%N.
Proof. intro H. apply bsum_zero. intros u Hu. apply bsum_zero. intros v _. rewrite H by auto. reflexivity. Qed.

Section Junction.
Context (k : nat) (W : wfun) (c : N) (Pc : (0 < c)%N) (Sy : symm k W) (Lo : atleast c k W) (Ap : apart c k W).

Lemma cross_min A B x y : cutw k W A = c -> cutw k W B = c -> x < k -> A x = true -> B x = true -> y < k -> A y = false -> B y = false ->
  cutw k W (fun v => A v && B v) = c /\ cutw k W (fun v => A v || B v) = c.
Proof.
  intros CA CB Hx Ax Bx Hy Ay By. destruct (six k W Sy A B) as (E1 & E2 & E3 & E4 & E5 & E6). cbv zeta in *.
  assert (P1 : (c <= cutw k W (c11 A B))%N) by (apply Lo, (proper_at k _ x y); auto; unfold c11; [rewrite Ax, Bx|rewrite Ay, By]; auto).
  assert (P2 : (c <= cutw k W (c00 A B))%N) by (apply Lo, (proper_at k _ y x); auto; unfold c00; [rewrite Ay, By|rewrite Ax, Bx]; auto).
  assert (Q1 : cutw k W (fun v => A v && B v) = cutw k W (c11 A B)) by reflexivity.
  assert (Q2 : cutw k W (fun v => A v || B v) = cutw k W (c00 A B)).
  { rewrite <- (cutw_compl k W (c00 A B) Sy). apply cutw_ext. intros u _. unfold c00. destruct (A u), (B u); reflexivity. }
  rewrite Q1, Q2. lia.
Qed.

(** a vertex whose only minimum cut around it that shows no other vertices is itself *)
Section Single.
Context (E : nat -> bool) (Nt : forall f, proper k f -> cutw k W f = c -> exists x, x < k /\ f x = true /\ E x = false).
(** E: vertices that may be left out, every side of a minimum cut has another one *)
Lemma single_cut v : v < k -> forall m (K : nat -> bool), bsum k (fun x => if K x then 1%N else 0%N) = N.of_nat m -> cutw k W K = c -> K v = true -> (forall x, x < k -> K x = true -> x <> v -> E x = true) ->
  cutw k W (fun x => Nat.eqb x v) = c.
Proof.
  intros Hv m. induction m as [m IH] using lt_wf_ind. intros K Sz CK Kv Em.
  assert (D : (forall y, y < k -> y <> v -> K y = false) \/ exists y, y < k /\ y <> v /\ K y = true).
  { clear -k. induction k as [|j IHj]; [left; intros; lia|]. destruct IHj as [A|(y & A & B & C)]; [|right; exists y; auto]. destruct (Nat.eq_dec j v) as [->|Nj]; [left; intros y Hy Ny; apply A; [lia|auto]|]. destruct (K j) eqn:Q; [right; exists j; auto|]. left. intros y Hy Ny. destruct (Nat.eq_dec y j) as [->|]; [auto|]. apply A; [lia|auto]. }
  destruct D as [D|(y & Hy & Ny & Ky)].
  - rewrite <- CK. apply cutw_ext. intros u Hu. destruct (Nat.eqb_spec u v) as [->|]; [auto|]. symmetry. auto.
  - destruct (Ap y v Hy Hv Ny) as (Z & Dz & CZ).
    assert (G : exists Z, Z y = true /\ Z v = false /\ cutw k W Z = c).
    { destruct (Z y) eqn:Q1, (Z v) eqn:Q2; try congruence; [exists Z; auto|]. exists (fun u => negb (Z u)). rewrite Q1, Q2. rewrite cutw_compl by auto. auto. }
    clear Z Dz CZ. destruct G as (Z & Zy & Zv & CZ).
    destruct (existsb (fun x => negb (Z x) && negb (K x)) (seq 0 k)) eqn:Q.
    + exfalso. apply existsb_exists in Q. destruct Q as (x & Hx & Q). apply in_seq in Hx. apply andb_true_iff in Q. destruct Q as [Q1 Q2]. apply negb_true_iff in Q1, Q2.
      destruct (cross_min Z K y x CZ CK Hy Zy Ky ltac:(lia) Q1 Q2) as [C1 _].
      destruct (Nt (fun u => Z u && K u)) as (u & Hu & Fu & Eu); [apply (proper_at k _ y v); auto; cbv beta; [rewrite Zy, Ky|rewrite Zv]; auto|auto|].
      apply andb_true_iff in Fu. destruct Fu as [F1 F2]. rewrite Em in Eu; auto; [discriminate Eu|]. intros ->. congruence.
    + assert (Sub : forall x, x < k -> Z x = false -> K x = true).
      { intros x Hx Zx. destruct (K x) eqn:Kx; [auto|]. exfalso. assert (X : existsb (fun x => negb (Z x) && negb (K x)) (seq 0 k) = true) by (apply existsb_exists; exists x; rewrite Zx, Kx; split; [apply in_seq; lia|reflexivity]). congruence. }
      set (K2 := fun x => negb (Z x)).
      assert (Lt : (bsum k (fun x => if K2 x then 1%N else 0%N) < bsum k (fun x => if K x then 1%N else 0%N))%N).
      { pose proof (bsum_add k (fun x => if K2 x then 1%N else 0%N) (fun x => if Nat.eqb x y then 1%N else 0%N)) as A. assert (B : bsum k (fun x => if Nat.eqb x y then 1%N else 0%N) = 1%N) by (apply (bsum_single k (fun _ => 1%N) y); auto).
        assert (C : (bsum k (fun i => ((if K2 i then 1 else 0) + (if Nat.eqb i y then 1 else 0))%N) <= bsum k (fun x => if K x then 1%N else 0%N))%N).
        { apply bsum_le. intros i Hi. unfold K2. specialize (Sub i Hi). destruct (Nat.eqb_spec i y) as [->|]; [rewrite Zy, Ky; cbn; lia|]. destruct (Z i); cbn; [destruct (K i); lia|rewrite Sub by auto; lia]. }
        lia. }
      apply (IH (N.to_nat (bsum k (fun x => if K2 x then 1%N else 0%N))) ltac:(lia) K2); [rewrite N2Nat.id; reflexivity|unfold K2; rewrite cutw_compl; auto|unfold K2; rewrite Zv; auto|].
      intros x Hx Kx Nx. apply Em; auto. apply Sub; auto. unfold K2 in Kx. apply negb_true_iff in Kx. auto.
Qed.
End Single.

(** moving a vertex of two junctions along an edge of weight c *)
Lemma flip_cut v u h : v < k -> u < k -> v <> u -> W v u = c -> cutw k W (fun x => Nat.eqb x v) = (2 * c)%N -> cutw k W h = c -> h v <> h u ->
  cutw k W (fun x => if Nat.eqb x v then h u else h x) = c.
Proof.
  intros Hv Hu Nvu Wc Dg Ch Nh.
  assert (G : forall g, cutw k W g = c -> g v = true -> g u = false -> cutw k W (fun x => if Nat.eqb x v then false else g x) = c).
  { intros g Cg Gv Gu. destruct (six k W Sy (fun x => Nat.eqb x v) g) as (E1 & E2 & E3 & E4 & E5 & E6). cbv zeta in *.
    assert (Z : forall Y, btw k W (c10 (fun x => Nat.eqb x v) g) Y = 0%N) by (intro Y; apply btw_empty; intros x _; unfold c10; destruct (Nat.eqb_spec x v) as [->|]; [rewrite Gv|]; reflexivity).
    assert (Z' : forall Y, btw k W Y (c10 (fun x => Nat.eqb x v) g) = 0%N) by (intro Y; rewrite btw_sym by auto; apply Z).
    assert (B : (W v u <= btw k W (c11 (fun x => Nat.eqb x v) g) (c00 (fun x => Nat.eqb x v) g))%N) by (apply btw_one; auto; unfold c11, c00; [rewrite Nat.eqb_refl, Gv; auto|destruct (Nat.eqb_spec u v); [congruence|rewrite Gu; auto]]).
    assert (R : cutw k W (fun x => if Nat.eqb x v then false else g x) = cutw k W (c01 (fun x => Nat.eqb x v) g)) by (apply cutw_ext; intros x _; unfold c01; destruct (x =? v); reflexivity).
    rewrite R. rewrite !Z, ?Z' in *. lia. }
  destruct (h v) eqn:Q1, (h u) eqn:Q2; try congruence; [apply G; auto|].
  rewrite <- (cutw_compl k W h Sy) in Ch. pose proof (G (fun x => negb (h x)) Ch) as X. cbv beta in X. rewrite Q1, Q2 in X. specialize (X eq_refl eq_refl). rewrite <- X. rewrite <- (cutw_compl k W (fun x => if Nat.eqb x v then true else h x) Sy). apply cutw_ext. intros x _. destruct (x =? v); reflexivity.
Qed.

Context (Hf : forall u v, u < k -> v < k -> u <> v -> exists j, (2 * W u v = j * c)%N).

Lemma mult_sum m (f : nat -> N) : (forall i, i < m -> exists j, (2 * f i = j * c)%N) -> exists j, (2 * bsum m f = j * c)%N.
Proof.
  induction m as [|m IH]; intro H; [exists 0%N; reflexivity|]. rewrite bsum_S. destruct IH as [j E]; [intros; apply H; lia|]. destruct (H m ltac:(lia)) as [i Ei]. exists (j + i)%N. lia.
Qed.
Lemma btw_mult X Y : (forall u, u < k -> X u = true -> Y u = true -> False) -> exists j, (2 * btw k W X Y = j * c)%N.
Proof.
  intro D. apply mult_sum. intros u Hu. apply mult_sum. intros v Hv. destruct (X u && Y v) eqn:Q; [|exists 0%N; reflexivity]. apply andb_true_iff in Q. destruct Q as [Q1 Q2]. apply Hf; auto. intros ->. eauto.
Qed.
Lemma union_cut A S : (forall u, u < k -> A u = true -> S u = true -> False) -> (cutw k W (fun v => A v || S v) + 2 * btw k W A S = cutw k W A + cutw k W S)%N.
Proof.
  intro D. destruct (six k W Sy A S) as (E1 & E2 & E3 & E4 & E5 & E6). cbv zeta in *.
  assert (Z : forall Y, btw k W (c11 A S) Y = 0%N) by (intro Y; apply btw_empty; intros u Hu; unfold c11; specialize (D u Hu); destruct (A u), (S u); auto; destruct D; auto).
  assert (Q2 : cutw k W (fun v => A v || S v) = cutw k W (c00 A S)).
  { rewrite <- (cutw_compl k W (c00 A S) Sy). apply cutw_ext. intros u _. unfold c00. destruct (A u), (S u); reflexivity. }
  assert (Q3 : btw k W A S = btw k W (c10 A S) (c01 A S)) by (apply btw_ext; intros u Hu; specialize (D u Hu); unfold c10, c01; destruct (A u), (S u); auto; destruct D; auto).
  rewrite Q2, Q3. rewrite !Z in *. lia.
Qed.

(** disjoint unions of minimum cuts that leave v out *)
Inductive du (v : nat) : (nat -> bool) -> Prop :=
| du_nil S : (forall x, x < k -> S x = false) -> du v S
| du_cons A S S' : cutw k W A = c -> A v = false -> (exists x, x < k /\ A x = true) -> du v S -> (forall x, x < k -> A x = true -> S x = true -> False) ->
    (forall x, x < k -> S' x = A x || S x) -> du v S'.

Lemma du_ext v S S' : (forall x, x < k -> S x = S' x) -> du v S -> du v S'.
Proof.
  intros E D. revert S' E. destruct D as [T H|B T T' C Bv Ne D Dj U]; intros S' E; [apply du_nil; intros; rewrite <- E; auto|]. apply (du_cons v B T); auto. intros x Hx. rewrite <- E; auto.
Qed.
Lemma du_add v S : v < k -> du v S -> forall B, cutw k W B = c -> B v = false -> (exists x, x < k /\ B x = true) -> du v (fun x => B x || S x).
Proof.
  intros Hv D. induction D as [S H|A S S' C Av Ne D IH Dj U]; intros B CB Bv NB.
  - eapply (du_cons v B S); eauto; [apply du_nil; auto|]. intros x Hx _ Sx. rewrite H in Sx by auto. discriminate Sx.
  - destruct (existsb (fun x => A x && B x) (seq 0 k)) eqn:Q.
    + apply existsb_exists in Q. destruct Q as (x & Hx & Q). apply in_seq in Hx. apply andb_true_iff in Q. destruct Q as [Q1 Q2].
      destruct (cross_min A B x v C CB ltac:(lia) Q1 Q2 Hv Av Bv) as [_ C2]. eapply du_ext; [|apply (IH (fun v => A v || B v) C2); [rewrite Av, Bv; reflexivity|exists x; split; [lia|rewrite Q1; reflexivity]]].
      intros y Hy. cbv beta. rewrite U by auto. destruct (A y), (B y), (S y); reflexivity.
    + eapply (du_cons v A (fun x => B x || S x)); auto.
      * intros x Hx Ax BSx. apply orb_true_iff in BSx. destruct BSx as [Bx|Sx]; [|eauto]. assert (X : existsb (fun x => A x && B x) (seq 0 k) = true) by (apply existsb_exists; exists x; rewrite Ax, Bx; split; [apply in_seq; lia|reflexivity]). congruence.
      * intros y Hy. cbv beta. rewrite U by auto. destruct (A y), (B y), (S y); reflexivity.
Qed.
Lemma du_mult v S : du v S -> exists j, cutw k W S = (j * c)%N.
Proof.
  induction 1 as [S H|A S S' C Av Ne D IH Dj U].
  - exists 0%N. unfold cutw. apply bsum_zero. intros u Hu. apply bsum_zero. intros w _. rewrite H by auto. reflexivity.
  - destruct IH as [j Ej]. destruct (btw_mult A S Dj) as [i Ei]. pose proof (union_cut A S Dj) as E. rewrite (cutw_ext k W S' (fun v => A v || S v)) by (intros; apply U; auto). rewrite C, Ej, Ei in E. exists (1 + j - i)%N. nia.
Qed.
Lemma du_all v : v < k -> forall m, m <= k -> exists S, du v S /\ S v = false /\ forall x, x < m -> x <> v -> S x = true.
Proof.
  intro Hv. induction m as [|m IH]; intro Hm; [exists (fun _ => false); split; [apply du_nil; auto|split; [auto|intros; lia]]|]. destruct (IH ltac:(lia)) as (S & D & Sv & Al).
  destruct (Nat.eq_dec m v) as [->|Nm]; [exists S; split; [auto|split; [auto|intros x Hx Nx; apply Al; [lia|auto]]]|].
  destruct (Ap m v ltac:(lia) Hv Nm) as (Z & Dz & CZ).
  assert (G : exists Z, Z m = true /\ Z v = false /\ cutw k W Z = c).
  { destruct (Z m) eqn:Q1, (Z v) eqn:Q2; try congruence; [exists Z; auto|]. exists (fun u => negb (Z u)). rewrite Q1, Q2. rewrite cutw_compl by auto. auto. }
  clear Z Dz CZ. destruct G as (Z & Zm & Zv & CZ). exists (fun x => Z x || S x). split; [apply du_add; auto; exists m; split; [lia|auto]|]. split; [rewrite Zv, Sv; reflexivity|].
  intros x Hx Nx. destruct (Nat.eq_dec x m) as [->|]; [rewrite Zm; reflexivity|]. rewrite Al by (auto; lia). apply orb_true_r.
Qed.
(** every vertex has a whole number of junctions *)
Lemma degree_mult v : v < k -> exists j, cutw k W (fun x => Nat.eqb x v) = (j * c)%N.
Proof.
  intro Hv. destruct (du_all v Hv k (le_n _)) as (S & D & Sv & Al). destruct (du_mult v S D) as [j E]. exists j. rewrite <- E, <- (cutw_compl k W S Sy). apply cutw_ext. intros u Hu. destruct (Nat.eqb_spec u v) as [->|Nu]; [rewrite Sv|rewrite Al by auto]; reflexivity.
Qed.
End Junction.
