(* P_PR.v - proofs about the Padberg-Rinaldi tests: exchanging a vertex between the two sides of a
   cut, the pairs joined by prTests12 and prTests34. *)
From Verif Require Import SpecRel M_UnionFind P_UnionFind SpecCut SpecHier SpecPR P_Cut M_PRTests P_Contract P_Hier.

(** weight from x into a set *)
Definition into (n : nat) (W : wfun) (x : nat) (S : nat -> bool) : N := bsum n (fun v => if S v then W x v else 0%N).
(** S without x *)
Definition without (S : nat -> bool) (x : nat) : nat -> bool := fun u => if u =? x then false else S u.

Lemma bsum_out n f x : x < n -> bsum n f = (f x + bsum n (fun u => if Nat.eqb u x then 0 else f u))%N.
Proof.
  intro Hx. rewrite (bsum_split n f (fun u => u =? x)). rewrite (bsum_single n f x Hx). reflexivity.
Qed.

Lemma move_cut n W S x : symm n W -> loopfree n W -> x < n -> S x = true ->
  (cutw n W (without S x) + into n W x (fun v => negb (S v)) = cutw n W S + into n W x S)%N.
Proof.
  intros Sy Lf Hx Sx. unfold cutw, into.
  rewrite (bsum_out n (fun u => bsum n (fun v => if S u && negb (S v) then W u v else 0%N)) x Hx).
  rewrite (bsum_out n (fun u => bsum n (fun v => if without S x u && negb (without S x v) then W u v else 0%N)) x Hx).
  rewrite (bsum_zero n (fun v => if without S x x && negb (without S x v) then W x v else 0%N))
    by (intros; unfold without; rewrite Nat.eqb_refl; reflexivity).
  rewrite Sx. cbn [andb].
  rewrite (bsum_ext n (fun u => if u =? x then 0%N else bsum n (fun v => if without S x u && negb (without S x v) then W u v else 0%N))
     (fun u => (if Nat.eqb u x then 0 else bsum n (fun v => if S u && negb (S v) then W u v else 0)) + (if S u then W x u else 0))%N).
  - rewrite bsum_add. lia.
  - intros u Hu. destruct (Nat.eqb_spec u x) as [->|Nu].
    + rewrite Sx, Lf by auto. reflexivity.
    + rewrite (bsum_out n (fun v => if without S x u && negb (without S x v) then W u v else 0%N) x Hx).
      rewrite (bsum_out n (fun v => if S u && negb (S v) then W u v else 0%N) x Hx).
      unfold without at 1 2. rewrite Nat.eqb_refl, Sx. apply Nat.eqb_neq in Nu. rewrite Nu.
      cbn [negb]. rewrite !andb_true_r, !andb_false_r. rewrite (Sy u x) by auto.
      rewrite (bsum_ext n (fun v => if v =? x then 0%N else if without S x u && negb (without S x v) then W u v else 0%N)
        (fun v => if v =? x then 0%N else if S u && negb (S v) then W u v else 0%N)).
      * destruct (S u); lia.
      * intros v Hv. unfold without. rewrite Nu. destruct (v =? x); reflexivity.
Qed.

Lemma into_total n W x S : (into n W x S + into n W x (fun v => negb (S v)) = bsum n (W x))%N.
Proof.
  unfold into. rewrite <- bsum_add. apply bsum_ext. intros v Hv. destruct (S v); simpl; lia.
Qed.

(** moving a vertex with at least half of its weight on the other side does not increase the cut *)
Lemma move_le n W S x h : symm n W -> loopfree n W -> x < n -> S x = true ->
  (h <= into n W x (fun v => negb (S v)))%N -> (bsum n (W x) <= 2 * h)%N -> (cutw n W (without S x) <= cutw n W S)%N.
Proof.
  intros Sy Lf Hx Sx L D. pose proof (move_cut n W S x Sy Lf Hx Sx) as M. pose proof (into_total n W x S) as T. lia.
Qed.
Lemma move_lt n W S x h : symm n W -> loopfree n W -> x < n -> S x = true ->
  (h <= into n W x (fun v => negb (S v)))%N -> (bsum n (W x) < 2 * h)%N -> (cutw n W (without S x) < cutw n W S)%N.
Proof.
  intros Sy Lf Hx Sx L D. pose proof (move_cut n W S x Sy Lf Hx Sx) as M. pose proof (into_total n W x S) as T. lia.
Qed.

Lemma into_one n W x (S : nat -> bool) a : a < n -> S a = true -> (W x a <= into n W x S)%N.
Proof.
  intros Ha Sa. unfold into. pose proof (bsum_In_le n (fun v => if S v then W x v else 0%N) a Ha) as L. cbn beta in L.
  rewrite Sa in L. exact L.
Qed.
Lemma into_two n W x (S : nat -> bool) a b : a < n -> b < n -> a <> b -> S a = true -> S b = true ->
  (W x a + W x b <= into n W x S)%N.
Proof.
  intros Ha Hb N Sa Sb. unfold into. rewrite (bsum_out n _ a Ha). rewrite Sa.
  pose proof (bsum_In_le n (fun u => if u =? a then 0%N else if S u then W x u else 0%N) b Hb) as L. cbn beta in L.
  destruct (Nat.eqb_spec b a); [congruence|]. rewrite Sb in L. lia.
Qed.

Lemma proper_without n S x : x < n -> S x = true -> proper n S ->
  proper n (without S x) \/ forall u, u < n -> S u = (u =? x).
Proof.
  intros Hx Sx [_ [v [Hv Ev]]].
  destruct (existsb (fun u => without S x u) (seq 0 n)) eqn:E.
  - left. apply existsb_exists in E. destruct E as [u [Hu Eu]]. apply in_seq in Hu. split.
    + exists u. split; [lia|auto].
    + exists v. split; [auto|]. unfold without. rewrite Ev. destruct (v =? x); reflexivity.
  - right. intros u Hu. destruct (Nat.eqb_spec u x) as [->|N]; [auto|].
    destruct (S u) eqn:Su; [|reflexivity]. exfalso.
    assert (X : existsb (fun u => without S x u) (seq 0 n) = true).
    { apply existsb_exists. exists u. split; [apply in_seq; lia|]. unfold without. apply Nat.eqb_neq in N. rewrite N. auto. }
    congruence.
Qed.

Lemma wt_entry G x t w : In (t, w) (nth x G []) -> (w <= wt G x t)%N.
Proof.
  intro H. unfold wt. apply (sumN_In_le snd _ (t, w)). apply filter_In. split; [auto|]. apply Nat.eqb_refl.
Qed.

(** a cut separating a and b pays for the edge and for every common neighbour *)
Lemma tri_cut n W S a b : symm n W -> a < n -> b < n -> S a <> S b ->
  (W a b + bsum n (fun x => if (Nat.eqb x a || Nat.eqb x b)%bool then 0 else N.min (W a x) (W b x)) <= cutw n W S)%N.
Proof.
  intros Sy.
  assert (K : forall S a b, a < n -> b < n -> S a = true -> S b = false ->
    (W a b + bsum n (fun x => if (Nat.eqb x a || Nat.eqb x b)%bool then 0 else N.min (W a x) (W b x)) <= cutw n W S)%N).
  { clear S a b. intros S a b Ha Hb Sa Sb. assert (Nab : a <> b) by congruence.
    unfold cutw. rewrite (bsum_out n (fun u => bsum n (fun v => if S u && negb (S v) then W u v else 0%N)) a Ha). rewrite Sa. cbn [andb].
    transitivity (bsum n (fun v => if negb (S v) then W a v else 0%N) +
                  bsum n (fun u => if Nat.eqb u a then 0 else if S u then W u b else 0))%N.
    - rewrite <- bsum_add. rewrite (bsum_out n (fun v => (if negb (S v) then W a v else 0) + (if Nat.eqb v a then 0 else if S v then W v b else 0))%N b Hb).
      rewrite Sb. cbn [negb]. apply N.add_le_mono; [lia|]. apply bsum_le. intros x Hx.
      destruct (Nat.eqb_spec x a) as [->|Nxa]; [simpl; lia|]. destruct (Nat.eqb_spec x b) as [->|Nxb]; simpl; [lia|].
      destruct (S x); simpl; [rewrite (Sy b x) by auto|]; lia.
    - apply N.add_le_mono_l. apply bsum_le. intros u Hu. destruct (u =? a); [lia|]. destruct (S u); [|lia]. cbn [andb].
      pose proof (bsum_In_le n (fun v => if negb (S v) then W u v else 0%N) b Hb) as L. cbn beta in L. rewrite Sb in L. exact L. }
  intros Ha Hb D. destruct (S a) eqn:Ea, (S b) eqn:Eb; try congruence.
  - apply K; auto.
  - rewrite <- (cutw_compl n W S Sy). apply (K (fun u => negb (S u))); auto; [rewrite Ea|rewrite Eb]; reflexivity.
Qed.

Lemma sep_weight n W S a b : symm n W -> a < n -> b < n -> S a <> S b -> (W a b <= cutw n W S)%N.
Proof. intros Sy Ha Hb D. pose proof (tri_cut n W S a b Sy Ha Hb D). lia. Qed.

Section Move.
Variable G : graph.
Variable limit : N.
Hypothesis U : undirected G.
Let n := length G.
Let W := wt G.

Lemma W_symm : symm n W. Proof. exact (proj2 U). Qed.
Lemma W_loop : loopfree n W. Proof. intros v _. apply wt_loop; auto. Qed.

Lemma below_compl S : mincut_below G limit S -> mincut_below G limit (fun u => negb (S u)).
Proof.
  intros (P & M & L). unfold mincut_below. fold n W in P, M, L |- *. rewrite (cutw_compl n W S W_symm).
  split; [apply proper_compl; auto|auto].
Qed.

Lemma deg_sum x : deg G x = bsum n (W x).
Proof. exact (wt_deg G x U). Qed.

(** at least half of the weight of x leaves S: then S without x is a minimum cut as well *)
Lemma move_half S x h : mincut_below G limit S -> (limit <= deg G x)%N -> x < n -> S x = true ->
  (h <= into n W x (fun v => negb (S v)))%N -> (deg G x <= 2 * h)%N -> mincut_below G limit (without S x).
Proof.
  intros (P & M & L) D Hx Sx Lh H2. unfold mincut_below. fold n W in P, M, L |- *.
  rewrite deg_sum in H2. pose proof (move_le n W S x h W_symm W_loop Hx Sx Lh H2) as X.
  destruct (proper_without n S x Hx Sx P) as [P'|E].
  - split; [auto|]. split; [|lia]. intros S' Q. specialize (M S' Q). lia.
  - exfalso. rewrite (cutw_ext n W S (fun u => u =? x) E) in L. unfold n, W in L. rewrite <- deg_cut in L by auto. lia.
Qed.

(** more than half: impossible *)
Lemma move_more S x h : mincut_below G limit S -> (limit <= deg G x)%N -> x < n -> S x = true ->
  (h <= into n W x (fun v => negb (S v)))%N -> (deg G x < 2 * h)%N -> False.
Proof.
  intros B D Hx Sx Lh H2. destruct (move_half S x h B D Hx Sx Lh ltac:(lia)) as (P' & _ & _).
  destruct B as (P & M & L). fold n W in P, M, L |- *. specialize (M _ P'). rewrite deg_sum in H2.
  pose proof (move_lt n W S x h W_symm W_loop Hx Sx Lh H2). lia.
Qed.

Definition good (a b : nat) : Prop := forall S, mincut_below G limit S -> S a = S b.

Lemma good_refl a : good a a. Proof. intros S _. reflexivity. Qed.
Lemma good_sym a b : good a b -> good b a. Proof. intros H S B. symmetry. auto. Qed.
Lemma good_trans a b c : good a b -> good b c -> good a c. Proof. intros H K S B. rewrite (H S B). auto. Qed.
Lemma good_conn ps a b : (forall x y, In (x, y) ps -> good x y) -> conn ps a b -> good a b.
Proof. intros H. apply conn_in_relation; auto using good_refl, good_sym. intros x y z. apply good_trans. Qed.

Lemma good_true a b : (forall S, mincut_below G limit S -> S a = true -> S b = true) -> good a b.
Proof.
  intros H S B. destruct (S a) eqn:Sa; [symmetry; auto|]. destruct (S b) eqn:Sb; [|reflexivity].
  specialize (H _ (below_compl S B)). cbn beta in H. rewrite Sa, Sb in H. cbn in H. specialize (H eq_refl). discriminate.
Qed.

Lemma good_heavy a b : a < n -> b < n -> (limit <= W a b)%N -> good a b.
Proof.
  intros Ha Hb L S (P & M & Lt). destruct (Bool.bool_dec (S a) (S b)) as [E|E]; [auto|].
  pose proof (sep_weight n W S a b W_symm Ha Hb E) as X. fold n W in Lt. lia.
Qed.

Lemma good_half x t w : x < n -> t < n -> (limit <= deg G x)%N -> (w <= W x t)%N -> (deg G x < 2 * w)%N -> good x t.
Proof.
  intros Hx Ht D Lw H2. apply good_true. intros S B Sx. destruct (S t) eqn:St; [reflexivity|exfalso].
  apply (move_more S x w B D Hx Sx); [|auto]. etransitivity; [apply Lw|]. apply into_one; [auto|]. rewrite St. reflexivity.
Qed.

Lemma good_tri a b s : a < n -> b < n -> (limit <= s)%N ->
  (s <= W a b + bsum n (fun x => if (Nat.eqb x a || Nat.eqb x b)%bool then 0 else N.min (W a x) (W b x)))%N -> good a b.
Proof.
  intros Ha Hb L Ls S (P & M & Lt). destruct (Bool.bool_dec (S a) (S b)) as [E|E]; [auto|].
  pose proof (tri_cut n W S a b W_symm Ha Hb E) as X. fold n W in Lt. lia.
Qed.

(** a triangle a, b, x in which a and b have at least half of their weight *)
Record triangle (strict : bool) (a b x : nat) : Prop := {
  tr_a : a < n; tr_b : b < n; tr_x : x < n; tr_ab : a <> b; tr_ax : a <> x; tr_bx : b <> x;
  tr_da : (limit <= deg G a)%N; tr_db : (limit <= deg G b)%N;
  tr_ha : (deg G a <= 2 * (W a b + W a x))%N; tr_hb : (deg G b <= 2 * (W a b + W b x))%N;
  tr_s : strict = true -> (deg G a < 2 * (W a b + W a x))%N /\ (deg G b < 2 * (W a b + W b x))%N }.

Lemma good_triangle a b x : triangle true a b x -> good a b.
Proof.
  intros [Ha Hb Hx Nab Nax Nbx Da Db Pa Pb St]. destruct (St eq_refl) as [Sa Sb]. clear St.
  intros S B. destruct (Bool.bool_dec (S a) (S b)) as [E|E]; [auto|exfalso].
  assert (X : forall y z S, mincut_below G limit S -> y < n -> z < n -> z <> x -> S y = true -> S z = false -> S x = false ->
              (limit <= deg G y)%N -> (deg G y < 2 * (W y z + W y x))%N -> False).
  { intros y z T BT Hy Hz Nzx Ty Tz Tx Dy H2. apply (move_more T y (W y z + W y x) BT Dy Hy Ty); [|auto].
    apply into_two; auto; [rewrite Tz|rewrite Tx]; reflexivity. }
  pose proof (W_symm a b Ha Hb) as Sy.
  destruct (S a) eqn:Ea, (S b) eqn:Eb; try congruence; destruct (S x) eqn:Ex.
  - apply (X b a (fun u => negb (S u))); auto; [apply below_compl; auto|rewrite Eb|rewrite Ea|rewrite Ex|rewrite <- Sy]; auto.
  - apply (X a b S); auto.
  - apply (X a b (fun u => negb (S u))); auto; [apply below_compl; auto|rewrite Ea|rewrite Eb|rewrite Ex]; auto.
  - apply (X b a S); auto. rewrite <- Sy. auto.
Qed.

Lemma fix_triangle a b x S : triangle false a b x -> mincut_below G limit S ->
  exists S', mincut_below G limit S' /\ S' a = S' b /\ forall u, u <> a -> u <> b -> S' u = S u.
Proof.
  intros [Ha Hb Hx Nab Nax Nbx Da Db Pa Pb _] B.
  destruct (Bool.bool_dec (S a) (S b)) as [E|E]; [exists S; auto|].
  assert (X : forall y z S, mincut_below G limit S -> y < n -> z < n -> z <> x -> S y = true -> S z = false -> S x = false ->
              (limit <= deg G y)%N -> (deg G y <= 2 * (W y z + W y x))%N -> mincut_below G limit (without S y)).
  { intros y z T BT Hy Hz Nzx Ty Tz Tx Dy H2. apply (move_half T y (W y z + W y x)); auto.
    apply into_two; auto; [rewrite Tz|rewrite Tx]; reflexivity. }
  pose proof (W_symm a b Ha Hb) as Sy.
  assert (Nab' : b <> a) by auto. apply Nat.eqb_neq in Nab. apply Nat.eqb_neq in Nab'.
  destruct (S a) eqn:Ea, (S b) eqn:Eb; try congruence; destruct (S x) eqn:Ex.
  - exists (fun u => negb (without (fun u => negb (S u)) b u)). split; [|split].
    + apply below_compl. apply (X b a (fun u => negb (S u))); auto; [apply below_compl; auto|rewrite Eb|rewrite Ea|rewrite Ex|rewrite <- Sy]; auto.
    + unfold without. rewrite Nat.eqb_refl, Nab, Ea. reflexivity.
    + intros u Nu1 Nu2. unfold without. apply Nat.eqb_neq in Nu2. rewrite Nu2. apply Bool.negb_involutive.
  - exists (without S a). split; [|split].
    + apply (X a b S); auto.
    + unfold without. rewrite Nat.eqb_refl, Nab', Eb. reflexivity.
    + intros u Nu1 Nu2. unfold without. apply Nat.eqb_neq in Nu1. rewrite Nu1. reflexivity.
  - exists (fun u => negb (without (fun u => negb (S u)) a u)). split; [|split].
    + apply below_compl. apply (X a b (fun u => negb (S u))); auto; [apply below_compl; auto|rewrite Ea|rewrite Eb|rewrite Ex]; auto.
    + unfold without. rewrite Nat.eqb_refl, Nab', Eb. reflexivity.
    + intros u Nu1 Nu2. unfold without. apply Nat.eqb_neq in Nu1. rewrite Nu1. apply Bool.negb_involutive.
  - exists (without S b). split; [|split].
    + apply (X b a S); auto. rewrite <- Sy. auto.
    + unfold without. rewrite Nat.eqb_refl, Nab, Ea. reflexivity.
    + intros u Nu1 Nu2. unfold without. apply Nat.eqb_neq in Nu2. rewrite Nu2. reflexivity.
Qed.

(** vertex-disjoint triangle pairs can all be repaired *)
Definition ends (bs : list (nat * nat)) : list nat := flat_map (fun p => [fst p; snd p]) bs.
Lemma fix_all bs : (forall a b, In (a, b) bs -> exists x, triangle false a b x) -> NoDup (ends bs) ->
  forall S, mincut_below G limit S ->
  exists S', mincut_below G limit S' /\ (forall a b, In (a, b) bs -> S' a = S' b) /\ (forall u, ~ In u (ends bs) -> S' u = S u).
Proof.
  induction bs as [|[a b] bs IH]; intros T ND S B.
  - exists S. split; [auto|]. split; [intros ? ? []|auto].
  - cbn [ends flat_map fst snd app] in ND. change (flat_map _ bs) with (ends bs) in ND.
    apply NoDup_cons_iff in ND. destruct ND as [Na ND]. apply NoDup_cons_iff in ND. destruct ND as [Nb ND].
    destruct (IH (fun a b H => T a b (or_intror H)) ND S B) as [S1 [B1 [E1 F1]]].
    destruct (T a b (or_introl eq_refl)) as [x Tr].
    destruct (fix_triangle a b x S1 Tr B1) as [S2 [B2 [E2 F2]]].
    exists S2. split; [auto|]. split.
    + intros c d [H|H]; [injection H as <- <-; auto|].
      assert (Ic : In c (ends bs)) by (apply in_flat_map; exists (c, d); simpl; auto).
      assert (Id : In d (ends bs)) by (apply in_flat_map; exists (c, d); simpl; auto).
      assert (X : forall u, In u (ends bs) -> S2 u = S1 u).
      { intros u Hu. apply F2; intros ->; [apply Na; right; auto|apply Nb; auto]. }
      rewrite (X c Ic), (X d Id). apply E1. auto.
    + intros u Nu. cbn [ends flat_map fst snd app In] in Nu. change (flat_map _ bs) with (ends bs) in Nu.
      rewrite F2 by (intros ->; apply Nu; auto). apply F1. intro H. apply Nu. auto.
Qed.
End Move.
