(* Prop_Torus.v - C91: gnp_torus writes a symmetric graph in which every block is cut off by weight 4 * cut. *)
From Verif Require Import M_Torus P_Cut.

Lemma nth_rows (f : nat -> list (nat * N)) n v : v < n -> nth v (map f (seq 0 n)) [] = f v.
Proof.
  intro L. rewrite (nth_indep _ [] (f 0)) by (rewrite map_length, seq_length; auto). rewrite map_nth, seq_nth by auto. auto.
Qed.
Lemma both_sym ps u v : both ps u v = both ps v u.
Proof. apply sumN_ext. intros p _. apply N.add_comm. Qed.

Lemma wt_built (c : nat -> N) (g : nat -> nat) l v :
  sumN snd (filter (fun e => fst e =? v) (flat_map (fun t => if (0 <? c t)%N then [(g t, c t)] else []) l)) = sumN (fun t => if g t =? v then c t else 0%N) l.
Proof.
  induction l as [|t l IH]; [auto|]. cbn [flat_map sumN]. rewrite filter_app, sumN_app, IH. f_equal.
  destruct (N.ltb_spec 0 (c t)) as [P|P]; cbn [filter fst]; destruct (g t =? v); cbn [sumN snd]; lia.
Qed.

Lemma divmod_eq b y x y' x' : x < b -> x' < b -> y * b + x = y' * b + x' -> y = y' /\ x = x'.
Proof. intros A B E. apply (Nat.div_mod_unique b); auto. lia. Qed.

Lemma block_of vpb i r : r < vpb -> (i * vpb + r) / vpb = i.
Proof. intro L. rewrite Nat.div_add_l by lia. rewrite Nat.div_small by auto. lia. Qed.

Section TORUS.
Variables (b vpb cut : nat) (right down : nat -> nat -> nat * nat) (pick : nat -> nat -> nat -> nat).
Let n := b * b * vpb.
Let H := gnp_torus b vpb cut right down pick.
Let E := interblock b vpb cut right down.
Hypothesis Pv : 0 < vpb.

Lemma torus_wt u v : u < n -> v < n ->
  wt H u v = N.add (if u / vpb =? v / vpb then both (inblock vpb cut pick (u / vpb)) (u mod vpb) (v mod vpb) else 0%N) (both E u v).
Proof.
  intros Hu Hv. unfold wt, H, gnp_torus. cbv zeta. fold n. fold E.
  rewrite (nth_rows _ n u Hu). unfold torus_row. rewrite filter_app, sumN_app, !wt_built.
  replace (u mod vpb + u / vpb * vpb) with u by (pose proof (Nat.div_mod u vpb ltac:(lia)); lia). f_equal.
  - destruct (Nat.eqb_spec (u / vpb) (v / vpb)) as [Q|Q].
    + rewrite (sumN_ext _ (fun j => if j =? v mod vpb then both (inblock vpb cut pick (u / vpb)) (u mod vpb) j else 0%N)).
      * apply (bsum_single vpb (both (inblock vpb cut pick (u / vpb)) (u mod vpb)) (v mod vpb)). apply Nat.mod_upper_bound. lia.
      * intros j Hj. apply in_seq in Hj. rewrite Q. pose proof (Nat.div_mod v vpb ltac:(lia)) as D. pose proof (Nat.mod_upper_bound v vpb ltac:(lia)).
        destruct (Nat.eqb_spec (j + v / vpb * vpb) v) as [X|X]; destruct (Nat.eqb_spec j (v mod vpb)) as [Y|Y]; auto; exfalso; lia.
    + apply sumN_zero. intros j Hj. apply in_seq in Hj. destruct (Nat.eqb_spec (j + u / vpb * vpb) v) as [X|X]; [|auto].
      exfalso. apply Q. rewrite <- X. rewrite Nat.add_comm, block_of; lia.
  - apply (bsum_single n (both E u) v Hv).
Qed.

Lemma point_cut (T : nat -> bool) x y : x < n -> y < n ->
  bsum n (fun u => bsum n (fun v => if T u && negb (T v) then (if Nat.eqb x u && Nat.eqb y v then 1 else 0) else 0)%N) = (if T x && negb (T y) then 1 else 0)%N.
Proof.
  intros Hx Hy. rewrite (bsum_ext n _ (fun u => if u =? x then (if T x && negb (T y) then 1 else 0)%N else 0%N)).
  - apply (bsum_single n (fun _ => (if T x && negb (T y) then 1 else 0)%N) x Hx).
  - intros u Hu. destruct (Nat.eqb_spec u x) as [->|Ne].
    + rewrite (bsum_ext n _ (fun v => if v =? y then (if T x && negb (T y) then 1 else 0)%N else 0%N)).
      * apply (bsum_single n (fun _ => (if T x && negb (T y) then 1 else 0)%N) y Hy).
      * intros v Hv. rewrite Nat.eqb_refl. destruct (Nat.eqb_spec v y) as [->|Nv]; [rewrite Nat.eqb_refl; auto|].
        destruct (Nat.eqb_spec y v); [congruence|]. cbn [andb]. destruct (T x && negb (T v)); auto.
    + apply bsum_zero. intros v Hv. destruct (Nat.eqb_spec x u); [congruence|]. cbn [andb]. destruct (T u && negb (T v)); auto.
Qed.

Lemma both_cut (T : nat -> bool) ps : (forall p, In p ps -> fst p < n /\ snd p < n) ->
  bsum n (fun u => bsum n (fun v => if T u && negb (T v) then both ps u v else 0%N)) = sumN (fun p => if xorb (T (fst p)) (T (snd p)) then 1%N else 0%N) ps.
Proof.
  induction ps as [|[x y] ps IH]; intro R.
  - apply bsum_zero. intros u _. apply bsum_zero. intros v _. destruct (_ && _); auto.
  - cbn [sumN fst snd]. rewrite <- IH by (intros p I; apply R; right; auto). destruct (R (x, y) (or_introl eq_refl)) as [Hx Hy]. cbn [fst snd] in Hx, Hy.
    rewrite (bsum_ext n _ (fun u => (bsum n (fun v => if T u && negb (T v) then (if Nat.eqb x u && Nat.eqb y v then 1 else 0) else 0)%N +
       bsum n (fun v => if T u && negb (T v) then (if Nat.eqb y u && Nat.eqb x v then 1 else 0) else 0)%N) + bsum n (fun v => if T u && negb (T v) then both ps u v else 0))%N).
    + rewrite !bsum_add, !point_cut by auto. f_equal. destruct (T x), (T y); reflexivity.
    + intros u Hu. rewrite <- !bsum_add. apply bsum_ext. intros v Hv. destruct (T u && negb (T v)); [|auto]. unfold both. cbn [sumN fst snd].
      f_equal. f_equal. rewrite andb_comm. reflexivity.
Qed.

Lemma point_sum (F : nat -> nat -> bool) x y : x < n -> y < n ->
  bsum n (fun u => bsum n (fun v => if F u v then (if Nat.eqb x u && Nat.eqb y v then 1 else 0) else 0)%N) = (if F x y then 1 else 0)%N.
Proof.
  intros Hx Hy. rewrite (bsum_ext n _ (fun u => if u =? x then (if F x y then 1 else 0)%N else 0%N)).
  - apply (bsum_single n (fun _ => (if F x y then 1 else 0)%N) x Hx).
  - intros u Hu. destruct (Nat.eqb_spec u x) as [->|Ne].
    + rewrite (bsum_ext n _ (fun v => if v =? y then (if F x y then 1 else 0)%N else 0%N)).
      * apply (bsum_single n (fun _ => (if F x y then 1 else 0)%N) y Hy).
      * intros v Hv. rewrite Nat.eqb_refl. destruct (Nat.eqb_spec v y) as [->|Nv]; [rewrite Nat.eqb_refl; auto|].
        destruct (Nat.eqb_spec y v); [congruence|]. cbn [andb]. destruct (F x v); auto.
    + apply bsum_zero. intros v Hv. destruct (Nat.eqb_spec x u); [congruence|]. cbn [andb]. destruct (F u v); auto.
Qed.

Lemma both_sum (F : nat -> nat -> bool) ps : (forall p, In p ps -> fst p < n /\ snd p < n) ->
  bsum n (fun u => bsum n (fun v => if F u v then both ps u v else 0%N)) =
  sumN (fun p => (if F (fst p) (snd p) then 1 else 0) + (if F (snd p) (fst p) then 1 else 0))%N ps.
Proof.
  induction ps as [|[x y] ps IH]; intro R.
  - apply bsum_zero. intros u _. apply bsum_zero. intros v _. destruct (F u v); auto.
  - cbn [sumN fst snd]. rewrite <- IH by (intros p I; apply R; right; auto). destruct (R (x, y) (or_introl eq_refl)) as [Hx Hy]. cbn [fst snd] in Hx, Hy.
    rewrite (bsum_ext n _ (fun u => (bsum n (fun v => if F u v then (if Nat.eqb x u && Nat.eqb y v then 1 else 0) else 0)%N +
       bsum n (fun v => if F u v then (if Nat.eqb y u && Nat.eqb x v then 1 else 0) else 0)%N) + bsum n (fun v => if F u v then both ps u v else 0))%N).
    + rewrite !bsum_add, !point_sum by auto. reflexivity.
    + intros u Hu. rewrite <- !bsum_add. apply bsum_ext. intros v Hv. destruct (F u v); [|auto]. unfold both. cbn [sumN fst snd].
      f_equal. f_equal. rewrite andb_comm. reflexivity.
Qed.

Hypothesis Rg : forall i k, fst (right i k) < vpb /\ snd (right i k) < vpb /\ fst (down i k) < vpb /\ snd (down i k) < vpb.
Hypothesis Hb : 2 <= b.

Lemma succ_mod x : x < b -> (x + 1) mod b = if x + 1 =? b then 0 else x + 1.
Proof. intro L. destruct (Nat.eqb_spec (x + 1) b) as [->|Ne]; [apply Nat.mod_same; lia|apply Nat.mod_small; lia]. Qed.
Let prev (x : nat) := if x =? 0 then b - 1 else x - 1.
Lemma succ_prev x z : x < b -> z < b -> ((x + 1) mod b = z <-> x = prev z).
Proof. intros Hx Hz. rewrite succ_mod by auto. unfold prev. destruct (Nat.eqb_spec (x + 1) b), (Nat.eqb_spec z 0); lia. Qed.

Lemma coords i : i < b * b -> i = i / b * b + i mod b /\ i mod b < b /\ i / b < b.
Proof. intro L. pose proof (Nat.div_mod i b ltac:(lia)). pose proof (Nat.mod_upper_bound i b ltac:(lia)). split; [lia|]. split; [auto|]. apply Nat.div_lt_upper_bound; lia. Qed.

Lemma right_ok : (forall i, i < b * b -> right_of b i < b * b /\ right_of b i <> i) /\
  forall j, j < b * b -> exists l, l < b * b /\ forall i, i < b * b -> (right_of b i = j <-> i = l).
Proof.
  split.
  - intros i L. destruct (coords i L) as (A & B & C). unfold right_of. pose proof (succ_mod (i mod b) B) as Q. set (x := i mod b) in *. set (y := i / b) in *.
    rewrite Q. destruct (Nat.eqb_spec (x + 1) b); split; nia.
  - intros j L. destruct (coords j L) as (A & B & C). exists (j / b * b + prev (j mod b)).
    assert (Pb : prev (j mod b) < b) by (unfold prev; destruct (_ =? 0); lia). split; [nia|].
    intros i Li. destruct (coords i Li) as (A' & B' & C'). unfold right_of. pose proof (Nat.mod_upper_bound (i mod b + 1) b ltac:(lia)) as M. split.
    + intro Q. rewrite A in Q. apply divmod_eq in Q; [|auto|auto]. destruct Q as [Q1 Q2]. apply succ_prev in Q2; [|auto|auto]. rewrite A', Q1, Q2. auto.
    + intro Q. rewrite A' in Q. apply divmod_eq in Q; [|auto|auto]. destruct Q as [Q1 Q2]. rewrite A at 1. f_equal; [congruence|]. apply succ_prev; auto.
Qed.

Lemma below_ok : (forall i, i < b * b -> below b i < b * b /\ below b i <> i) /\
  forall j, j < b * b -> exists l, l < b * b /\ forall i, i < b * b -> (below b i = j <-> i = l).
Proof.
  split.
  - intros i L. destruct (coords i L) as (A & B & C). unfold below. pose proof (succ_mod (i / b) C) as Q. set (x := i mod b) in *. set (y := i / b) in *.
    rewrite Q. destruct (Nat.eqb_spec (y + 1) b); split; nia.
  - intros j L. destruct (coords j L) as (A & B & C). exists (prev (j / b) * b + j mod b).
    assert (Pb : prev (j / b) < b) by (unfold prev; destruct (_ =? 0); lia). split; [nia|].
    intros i Li. destruct (coords i Li) as (A' & B' & C'). unfold below. pose proof (Nat.mod_upper_bound (i / b + 1) b ltac:(lia)) as M. split.
    + intro Q. rewrite A in Q. apply divmod_eq in Q; [|auto|auto]. destruct Q as [Q1 Q2]. apply succ_prev in Q1; [|auto|auto]. rewrite A', Q1, Q2. auto.
    + intro Q. rewrite A' in Q. apply divmod_eq in Q; [|auto|auto]. destruct Q as [Q1 Q2]. rewrite A at 1. f_equal; [|congruence]. f_equal. apply succ_prev; auto.
Qed.

Lemma E_range p : In p E -> fst p < n /\ snd p < n.
Proof.
  unfold E, interblock. intro I. apply in_flat_map in I. destruct I as (i & Hi & I). apply in_seq in Hi. apply in_app_or in I.
  assert (X : forall y r, y < b * b -> r < vpb -> y * vpb + r < n) by (intros y r A B; unfold n; nia).
  destruct (proj1 right_ok i ltac:(lia)) as [Y _]. destruct (proj1 below_ok i ltac:(lia)) as [Z _].
  destruct I as [I|I]; apply in_map_iff in I; destruct I as (k & <- & _); cbn [fst snd]; destruct (Rg i k) as (A & B & C & D); rewrite (Nat.mul_comm vpb i); split; apply X; auto; lia.
Qed.

(** a map without fixed points under which exactly one block comes to j: two blocks are on an edge at j *)
Lemma two_ends (g : nat -> nat) j : (forall i, i < b * b -> g i < b * b /\ g i <> i) -> j < b * b ->
  (exists l, l < b * b /\ forall i, i < b * b -> (g i = j <-> i = l)) ->
  sumN (fun i => if xorb (i =? j) (g i =? j) then N.of_nat cut else 0%N) (seq 0 (b * b)) = (2 * N.of_nat cut)%N.
Proof.
  intros G1 Hj (l & Hl & G2). change (sumN ?f (seq 0 (b * b))) with (bsum (b * b) f).
  rewrite (bsum_ext _ _ (fun i => (if Nat.eqb i j then N.of_nat cut else 0) + (if Nat.eqb i l then N.of_nat cut else 0))%N).
  - rewrite bsum_add, (bsum_single (b * b) (fun _ => N.of_nat cut) j Hj), (bsum_single (b * b) (fun _ => N.of_nat cut) l Hl). lia.
  - intros i Hi. destruct (G1 i Hi) as [_ Ni]. specialize (G2 i Hi).
    destruct (Nat.eqb_spec i j), (Nat.eqb_spec (g i) j), (Nat.eqb_spec i l); cbn [xorb]; try lia; exfalso; intuition congruence.
Qed.

Lemma torus_cut j : j < b * b -> cutw n (wt H) (fun v => v / vpb =? j) = (4 * N.of_nat cut)%N.
Proof.
  intro Hj. unfold cutw. rewrite (bsum_ext n _ (fun u => bsum n (fun v => if (u / vpb =? j) && negb (v / vpb =? j) then both E u v else 0%N))).
  - rewrite (both_cut (fun v => v / vpb =? j) E E_range). unfold E, interblock. rewrite sumN_flat_map.
    rewrite (sumN_ext _ (fun i => (if xorb (Nat.eqb i j) (Nat.eqb (right_of b i) j) then N.of_nat cut else 0) + (if xorb (Nat.eqb i j) (Nat.eqb (below b i) j) then N.of_nat cut else 0))%N).
    + rewrite sumN_add, (two_ends (right_of b) j (proj1 right_ok) Hj (proj2 right_ok j Hj)), (two_ends (below b) j (proj1 below_ok) Hj (proj2 below_ok j Hj)). lia.
    + intros i _. rewrite sumN_app, !sumN_map. cbn [fst snd].
      assert (Cs : forall (c : bool) (f : nat -> N), (forall k, f k = if c then 1%N else 0%N) -> sumN f (seq 0 cut) = if c then N.of_nat cut else 0%N).
      { intros c f Hf. rewrite (sumN_ext f (fun _ => if c then 1%N else 0%N)) by auto. rewrite sumN_const, seq_length. destruct c; lia. }
      f_equal; apply Cs; intro k; destruct (Rg i k) as (A & B & C & D); rewrite (Nat.mul_comm vpb i), !block_of by auto; reflexivity.
  - intros u Hu. apply bsum_ext. intros v Hv. destruct (Nat.eqb_spec (u / vpb) j) as [Q|Q]; [|auto]. destruct (Nat.eqb_spec (v / vpb) j) as [Q'|Q']; [auto|].
    cbn [andb negb]. rewrite torus_wt by auto. destruct (Nat.eqb_spec (u / vpb) (v / vpb)); [congruence|]. lia.
Qed.
(** the weight between two different blocks *)
Lemma torus_between p q : p < b * b -> q < b * b -> p <> q ->
  bsum n (fun u => bsum n (fun v => if (u / vpb =? p) && (v / vpb =? q) then wt H u v else 0%N)) =
  (N.of_nat cut * ((if Nat.eqb (right_of b p) q then 1 else 0) + (if Nat.eqb (right_of b q) p then 1 else 0) +
                   (if Nat.eqb (below b p) q then 1 else 0) + (if Nat.eqb (below b q) p then 1 else 0)))%N.
Proof.
  intros Hp Hq Npq. rewrite (bsum_ext n _ (fun u => bsum n (fun v => if (u / vpb =? p) && (v / vpb =? q) then both E u v else 0%N))).
  - rewrite (both_sum (fun u v => (u / vpb =? p) && (v / vpb =? q)) E E_range). unfold E, interblock. rewrite sumN_flat_map.
    set (ind := fun c : bool => if c then N.of_nat cut else 0%N).
    rewrite (sumN_ext _ (fun i => ((if Nat.eqb i p then ind (Nat.eqb (right_of b p) q) else 0) + (if Nat.eqb i q then ind (Nat.eqb (right_of b q) p) else 0)) +
                                  ((if Nat.eqb i p then ind (Nat.eqb (below b p) q) else 0) + (if Nat.eqb i q then ind (Nat.eqb (below b q) p) else 0)))%N).
    + change (sumN ?f (seq 0 (b * b))) with (bsum (b * b) f). rewrite !bsum_add.
      rewrite (bsum_single (b * b) (fun _ => ind (right_of b p =? q)) p Hp), (bsum_single (b * b) (fun _ => ind (right_of b q =? p)) q Hq).
      rewrite (bsum_single (b * b) (fun _ => ind (below b p =? q)) p Hp), (bsum_single (b * b) (fun _ => ind (below b q =? p)) q Hq).
      unfold ind. destruct (right_of b p =? q), (right_of b q =? p), (below b p =? q), (below b q =? p); lia.
    + intros i _. rewrite sumN_app, !sumN_map. cbn [fst snd].
      assert (Cs : forall (c d : bool) (f : nat -> N), (forall k, f k = ((if c then 1 else 0) + (if d then 1 else 0))%N) -> sumN f (seq 0 cut) = (ind c + ind d)%N).
      { intros c d f Hf. rewrite (sumN_ext f (fun _ => ((if c then 1 else 0) + (if d then 1 else 0))%N)) by auto. rewrite sumN_const, seq_length. unfold ind. destruct c, d; lia. }
      assert (Sp : forall z, ((if Nat.eqb i p then ind (Nat.eqb (z p) q) else 0) + (if Nat.eqb i q then ind (Nat.eqb (z q) p) else 0))%N = (ind (Nat.eqb i p && Nat.eqb (z i) q) + ind (Nat.eqb (z i) p && Nat.eqb i q))%N).
      { intro z. destruct (Nat.eqb_spec i p) as [Q1|Q1], (Nat.eqb_spec i q) as [Q2|Q2]; cbn [andb]; rewrite ?andb_false_r, ?andb_true_r; [exfalso; congruence|rewrite Q1; unfold ind; lia|rewrite Q2; unfold ind; lia|unfold ind; lia]. }
      rewrite (Sp (right_of b)), (Sp (below b)).
      f_equal; apply Cs; intro k; destruct (Rg i k) as (A & B & C & D); rewrite (Nat.mul_comm vpb i), !block_of by auto; reflexivity.
  - intros u Hu. apply bsum_ext. intros v Hv. destruct (Nat.eqb_spec (u / vpb) p) as [Q|Q]; [|auto]. destruct (Nat.eqb_spec (v / vpb) q) as [Q'|Q']; [|auto].
    cbn [andb]. rewrite torus_wt by auto. destruct (Nat.eqb_spec (u / vpb) (v / vpb)); [congruence|]. lia.
Qed.

Lemma drawn_sum B i ps : B < b * b -> (forall p, In p ps -> snd p < vpb) ->
  bsum n (fun v => if v / vpb =? B then sumN (fun p => if Nat.eqb (fst p) i && Nat.eqb (snd p) (v mod vpb) then 1%N else 0%N) ps else 0%N) = sumN (fun p => if fst p =? i then 1%N else 0%N) ps.
Proof.
  intros HB. induction ps as [|[x y] ps IH]; intro R; [apply bsum_zero; intros v _; destruct (_ =? _); auto|]. cbn [sumN fst snd].
  rewrite <- IH by (intros p I; apply R; right; auto). pose proof (R (x, y) (or_introl eq_refl)) as Hy. cbn [snd] in Hy.
  assert (Hn : B * vpb + y < n) by (unfold n; nia).
  rewrite (bsum_ext n _ (fun v => ((if Nat.eqb v (Nat.add (Nat.mul B vpb) y) then (if Nat.eqb x i then 1 else 0) else 0) + (if Nat.eqb (Nat.div v vpb) B then sumN (fun p => if Nat.eqb (fst p) i && Nat.eqb (snd p) (Nat.modulo v vpb) then 1 else 0) ps else 0))%N)).
  - rewrite bsum_add, (bsum_single n (fun _ => if x =? i then 1%N else 0%N) (B * vpb + y) Hn). reflexivity.
  - intros v Hv. pose proof (Nat.div_mod v vpb ltac:(lia)) as D. pose proof (Nat.mod_upper_bound v vpb ltac:(lia)) as M. destruct (Nat.eqb_spec v (B * vpb + y)) as [Q|Q].
    + assert (Q1 : v / vpb = B) by (rewrite Q; apply block_of; auto). assert (Q2 : v mod vpb = y) by (rewrite Q1 in D; lia). rewrite Q1, Q2, !Nat.eqb_refl, andb_true_r. reflexivity.
    + destruct (Nat.eqb_spec (v / vpb) B) as [Q1|Q1]; [|reflexivity]. destruct (Nat.eqb_spec y (v mod vpb)) as [Q2|Q2]; [exfalso; apply Q; rewrite Q1 in D; lia|]. rewrite andb_false_r. reflexivity.
Qed.

Hypothesis Pk : forall bl i m, pick bl i m < vpb.
(** every vertex has at least the weight it draws inside its block *)
Lemma torus_inside u : u < n -> (4 * N.of_nat cut + 1 <= bsum n (fun v => if Nat.eqb (Nat.div v vpb) (Nat.div u vpb) then wt H u v else 0))%N.
Proof.
  intro Hu. assert (HB : u / vpb < b * b) by (apply Nat.div_lt_upper_bound; [lia|unfold n in Hu; lia]).
  pose proof (drawn_sum (u / vpb) (u mod vpb) (inblock vpb cut pick (u / vpb)) HB) as Q.
  assert (X : sumN (fun p => if fst p =? u mod vpb then 1%N else 0%N) (inblock vpb cut pick (u / vpb)) = (4 * N.of_nat cut + 1)%N).
  { unfold inblock. rewrite sumN_flat_map. rewrite (sumN_ext _ (fun i => if i =? u mod vpb then (4 * N.of_nat cut + 1)%N else 0%N)).
    - apply (bsum_single vpb (fun _ => (4 * N.of_nat cut + 1)%N) (u mod vpb)). apply Nat.mod_upper_bound. lia.
    - intros i _. rewrite sumN_map. cbn [fst]. rewrite sumN_const, seq_length. destruct (i =? u mod vpb); lia. }
  rewrite X in Q. rewrite <- Q.
  - apply sumN_le. intros v Hv. apply in_seq in Hv. destruct (Nat.eqb_spec (v / vpb) (u / vpb)) as [Y|Y]; [|lia]. rewrite torus_wt by (auto; lia). rewrite Y, Nat.eqb_refl.
    apply N.le_trans with (both (inblock vpb cut pick (u / vpb)) (u mod vpb) (v mod vpb)); [|lia]. unfold both. apply sumN_le. intros p _. lia.
  - intros p I. unfold inblock in I. apply in_flat_map in I as (i & _ & I). apply in_map_iff in I as (m & <- & _). apply Pk.
Qed.
End TORUS.

(** C91: for at least two blocks per dimension and numbers in range: b * b * vpb vertices, edges stay in range, both directions
    weigh the same, and every block is separated from the rest by weight exactly 4 * cut; so the minimum cut is at most that *)
Theorem C91_gnp_torus b vpb cut right down pick : 2 <= b -> 0 < vpb ->
  (forall i k, fst (right i k) < vpb /\ snd (right i k) < vpb /\ fst (down i k) < vpb /\ snd (down i k) < vpb) -> (forall bl i m, pick bl i m < vpb) ->
  let H := gnp_torus b vpb cut right down pick in
  length H = b * b * vpb /\ (forall u v w, In (v, w) (nth u H []) -> v < length H) /\ symm (length H) (wt H) /\
  (forall j, j < b * b -> cutw (length H) (wt H) (fun v => v / vpb =? j) = (4 * N.of_nat cut)%N) /\
  forall c, mincut_of H c -> (c <= 4 * N.of_nat cut)%N.
Proof.
  intros Hb Pv Rg Pk H. assert (L : length H = b * b * vpb) by (unfold H, gnp_torus; cbv zeta; rewrite map_length, seq_length; auto).
  assert (K : forall j, j < b * b -> cutw (length H) (wt H) (fun v => v / vpb =? j) = (4 * N.of_nat cut)%N) by (intros j Hj; rewrite L; apply torus_cut; auto).
  split; [auto|]. split; [|split; [|split; [auto|]]].
  - intros u v w I. destruct (Nat.lt_ge_cases u (length H)) as [Hu|Hu]; [|rewrite nth_overflow in I by auto; destruct I]. rewrite L in *.
    unfold H, gnp_torus in I. cbv zeta in I. rewrite (nth_rows _ _ u Hu) in I. unfold torus_row in I. apply in_app_or in I. destruct I as [I|I]; apply in_flat_map in I; destruct I as (t & Ht & I); apply in_seq in Ht.
    + destruct (0 <? _)%N; [|destruct I]. destruct I as [Q|[]]. injection Q as <- _. assert (u / vpb < b * b) by (apply Nat.div_lt_upper_bound; lia). nia.
    + destruct (0 <? _)%N; [|destruct I]. destruct I as [Q|[]]. injection Q as <- _. lia.
  - intros u v Hu Hv. rewrite L in *. unfold H. rewrite !torus_wt by auto. rewrite (both_sym (interblock _ _ _ _ _) u v), (Nat.eqb_sym (v / vpb)). f_equal.
    destruct (Nat.eqb_spec (u / vpb) (v / vpb)) as [Q|]; [|auto]. rewrite <- Q. apply both_sym.
  - intros c [_ M]. assert (B2 : 2 <= b * b) by nia. assert (B3 : 2 * vpb <= b * b * vpb) by (apply Nat.mul_le_mono_r; auto).
    rewrite <- (K 0) by lia. apply M. rewrite L. split; [exists 0; split; [lia|rewrite Nat.div_0_l by lia; auto]|].
    exists vpb. split; [lia|]. rewrite Nat.div_same by lia. auto.
Qed.
Print Assumptions C91_gnp_torus.

(** the weight between the vertices of two blocks *)
Definition between (W : wfun) (n vpb p q : nat) : N := bsum n (fun u => bsum n (fun v => if (u / vpb =? p) && (v / vpb =? q) then W u v else 0%N)).
(** z follows x on a cycle of length b *)
Definition follows (b x z : nat) : bool := (z =? x + 1) || ((x + 1 =? b) && (z =? 0)).

Lemma cyc_mod b x : x < b -> (x + 1) mod b = if x + 1 =? b then 0 else x + 1.
Proof. intro L. destruct (Nat.eqb_spec (x + 1) b) as [->|Ne]; [apply Nat.mod_same; lia|apply Nat.mod_small; lia]. Qed.
Lemma right_coords b x y x' y' : x < b -> y < b -> x' < b -> y' < b -> (right_of b (y * b + x) =? y' * b + x') = (y =? y') && follows b x x'.
Proof.
  intros A B C D. unfold right_of, follows. rewrite block_of by auto. rewrite (Nat.add_comm (y * b) x), Nat.mod_add, (Nat.mod_small x b) by lia. rewrite cyc_mod by lia.
  apply eq_true_iff_eq. rewrite andb_true_iff, orb_true_iff, andb_true_iff, !Nat.eqb_eq. destruct (Nat.eqb_spec (x + 1) b) as [Q|Q].
  - split; [intro E; apply divmod_eq in E; lia|]. intros [-> X]. lia.
  - split; [intro E; apply divmod_eq in E; lia|]. intros [-> X]. lia.
Qed.
Lemma below_coords b x y x' y' : x < b -> y < b -> x' < b -> y' < b -> (below b (y * b + x) =? y' * b + x') = (x =? x') && follows b y y'.
Proof.
  intros A B C D. unfold below, follows. rewrite block_of by auto. rewrite (Nat.add_comm (y * b) x), Nat.mod_add, (Nat.mod_small x b) by lia. rewrite cyc_mod by lia.
  apply eq_true_iff_eq. rewrite andb_true_iff, orb_true_iff, andb_true_iff, !Nat.eqb_eq. destruct (Nat.eqb_spec (y + 1) b) as [Q|Q].
  - split; [intro E; apply divmod_eq in E; lia|]. intros [-> X]. replace y' with 0 by lia. lia.
  - split; [intro E; apply divmod_eq in E; lia|]. intros [-> X]. replace y' with (y + 1) by lia. lia.
Qed.

(** the blocks form a torus: the block in column x and row y is joined by weight cut to each neighbour in its row and column, with wrap
    around (twice that if a block is both neighbours, b = 2), and to no other block; every vertex has weight at least 4 * cut + 1
    inside its block (loops included) *)
Theorem C91_torus_structure b vpb cut right down pick : 2 <= b -> 0 < vpb ->
  (forall i k, fst (right i k) < vpb /\ snd (right i k) < vpb /\ fst (down i k) < vpb /\ snd (down i k) < vpb) -> (forall bl i m, pick bl i m < vpb) ->
  let H := gnp_torus b vpb cut right down pick in
  (forall x y x' y', x < b -> y < b -> x' < b -> y' < b -> (x, y) <> (x', y') ->
     between (wt H) (length H) vpb (y * b + x) (y' * b + x') =
     (N.of_nat cut * ((if Nat.eqb y y' && follows b x x' then 1 else 0) + (if Nat.eqb y y' && follows b x' x then 1 else 0) +
                      (if Nat.eqb x x' && follows b y y' then 1 else 0) + (if Nat.eqb x x' && follows b y' y then 1 else 0)))%N) /\
  (forall u, u < length H -> (4 * N.of_nat cut + 1 <= bsum (length H) (fun v => if Nat.eqb (Nat.div v vpb) (Nat.div u vpb) then wt H u v else 0))%N).
Proof.
  intros Hb Pv Rg Pk H. assert (L : length H = b * b * vpb) by (unfold H, gnp_torus; cbv zeta; rewrite map_length, seq_length; auto). rewrite L. split.
  - intros x y x' y' A B C D Ne. unfold between, H. rewrite torus_between; auto; try nia.
    + rewrite !right_coords, !below_coords by auto. rewrite (Nat.eqb_sym y' y), (Nat.eqb_sym x' x). reflexivity.
    + intro E. apply divmod_eq in E; auto. destruct E as [-> ->]. auto.
  - intros u Hu. apply torus_inside; auto.
Qed.
Print Assumptions C91_torus_structure.

(** four blocks of two vertices, one edge in each direction *)
Definition t_right (i k : nat) : nat * nat := (i mod 2, 0).
Definition t_down (i k : nat) : nat * nat := (1, i mod 2).
Definition t_pick (bl i m : nat) : nat := (i + m) mod 2.
Example C91_case : (forall i k, fst (t_right i k) < 2 /\ snd (t_right i k) < 2 /\ fst (t_down i k) < 2 /\ snd (t_down i k) < 2) /\ (forall bl i m, t_pick bl i m < 2) /\
  nth 0 (gnp_torus 2 2 1 t_right t_down t_pick) [] = [(0, 6%N); (1, 4%N); (2, 1%N); (3, 1%N); (5, 1%N)].
Proof.
  split; [|split].
  - intros i k. unfold t_right, t_down. cbn [fst snd]. pose proof (Nat.mod_upper_bound i 2). lia.
  - intros bl i m. apply Nat.mod_upper_bound. lia.
  - vm_compute. reflexivity.
Qed.

(** "the minimum cut is 4 * cut, and there are no loops" is false: a vertex may draw itself each time *)
Theorem C91_mincut_refuted : let H := gnp_torus 2 2 1 (fun _ _ => (0, 0)) (fun _ _ => (0, 0)) (fun _ i _ => i) in
  In (1, 10%N) (nth 1 H []) /\ proper (length H) (fun v => v =? 1) /\ cutw (length H) (wt H) (fun v => v =? 1) = 0%N.
Proof.
  cbv zeta. split; [vm_compute; auto|]. split; [split; [exists 1|exists 0]; split; auto; vm_compute; lia|vm_compute; reflexivity].
Qed.
Print Assumptions C91_mincut_refuted.
