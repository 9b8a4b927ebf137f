(* P_Cut.v - facts about cuts of weight functions. *)
From Verif Require Import SpecCut.

Lemma bsum_le_n n m f : n <= m -> (bsum n f <= bsum m f)%N.
Proof. intro H. induction H; [lia|]. rewrite bsum_S. lia. Qed.

Lemma cutw_ext n W S S' : (forall u, u < n -> S u = S' u) -> cutw n W S = cutw n W S'.
Proof.
  intro H. unfold cutw. apply bsum_ext. intros u Hu. apply bsum_ext. intros v Hv. rewrite !H by auto. reflexivity.
Qed.

Lemma cutw_ext_W n W W' S : (forall u v, u < n -> v < n -> u <> v -> W u v = W' u v) -> cutw n W S = cutw n W' S.
Proof.
  intro H. unfold cutw. apply bsum_ext. intros u Hu. apply bsum_ext. intros v Hv.
  destruct (Nat.eq_dec u v) as [->|N]; [destruct (S v); reflexivity|]. rewrite H by auto. reflexivity.
Qed.

Lemma cutw_compl n W S : symm n W -> cutw n W (fun u => negb (S u)) = cutw n W S.
Proof.
  intro H. unfold cutw. rewrite bsum_swap. apply bsum_ext. intros u Hu. apply bsum_ext. intros v Hv.
  rewrite (H u v) by auto. rewrite Bool.negb_involutive, andb_comm. reflexivity.
Qed.

Lemma proper_compl n S : proper n S -> proper n (fun u => negb (S u)).
Proof.
  intros [[u [Hu Eu]] [v [Hv Ev]]]. split; [exists v|exists u]; split; auto; [rewrite Ev|rewrite Eu]; reflexivity.
Qed.

Lemma proper_ext n S S' : (forall u, u < n -> S u = S' u) -> proper n S -> proper n S'.
Proof.
  intros E [[u [Hu Eu]] [v [Hv Ev]]]. split; [exists u|exists v]; split; auto; rewrite <- E; auto.
Qed.

Lemma mincut_unique n W c c' : is_mincut n W c -> is_mincut n W c' -> c = c'.
Proof.
  intros [[S [P E]] L] [[S' [P' E']] L']. apply N.le_antisymm; [rewrite <- E'; auto|rewrite <- E; auto].
Qed.

(** singletons *)
Lemma cutw_single n W u : u < n -> cutw n W (fun v => v =? u) = wdeg n W u.
Proof.
  intro Hu. unfold cutw, wdeg.
  rewrite (bsum_ext n _ (fun x => if x =? u then bsum n (fun v => if v =? u then 0%N else W x v) else 0%N)).
  - apply bsum_single with (f := fun x => bsum n (fun v => if v =? u then 0%N else W x v)). auto.
  - intros x Hx. destruct (x =? u); simpl; [|apply bsum_zero; auto].
    apply bsum_ext. intros v Hv. destruct (v =? u); reflexivity.
Qed.

Lemma proper_single n u : 2 <= n -> u < n -> proper n (fun v => v =? u).
Proof.
  intros Hn Hu. split.
  - exists u. rewrite Nat.eqb_refl. auto.
  - destruct (Nat.eq_dec u 0) as [->|U]; [exists 1|exists 0]; split; [lia|reflexivity|lia|apply Nat.eqb_neq; lia].
Qed.

(** connectivity is an equivalence *)
Lemma conn_ge_refl n W k u : conn_ge n W k u u.
Proof. intros S H. congruence. Qed.
Lemma conn_ge_sym n W k u v : conn_ge n W k u v -> conn_ge n W k v u.
Proof. intros H S N. apply H. congruence. Qed.
Lemma conn_ge_trans n W k u v w : conn_ge n W k u v -> conn_ge n W k v w -> conn_ge n W k u w.
Proof.
  intros H H' S N. destruct (Bool.bool_dec (S u) (S v)) as [E|E]; [|auto]. apply H'. congruence.
Qed.
Lemma conn_ge_le n W k k' u v : (k' <= k)%N -> conn_ge n W k u v -> conn_ge n W k' u v.
Proof. intros L H S N. specialize (H S N). lia. Qed.

(** contraction *)
Lemma bsum_pick n a (f : nat -> N) (P : nat -> bool) : a < n ->
  bsum n (fun p => if P p then (if a =? p then f p else 0%N) else 0%N) = if P a then f a else 0%N.
Proof.
  intro H. rewrite (bsum_ext n _ (fun p => if p =? a then (if P p then f p else 0%N) else 0%N)).
  - apply bsum_single with (f := fun p => if P p then f p else 0%N). auto.
  - intros p Hp. rewrite Nat.eqb_sym. destruct (p =? a), (P p); reflexivity.
Qed.

Lemma contraction_cut n W f n' W' S : (forall u, u < n -> f u < n') -> contraction_of n W f n' W' ->
  cutw n' W' S = cutw n W (fun u => S (f u)).
Proof.
  intros R C. unfold cutw.
  rewrite (bsum_ext n' _ (fun p => bsum n' (fun q => bsum n (fun u => bsum n (fun v =>
    if S p && negb (S q) then (if (f u =? p) && (f v =? q) then W u v else 0%N) else 0%N))))).
  2: { intros p Hp. apply bsum_ext. intros q Hq. destruct (S p && negb (S q)) eqn:E.
       - apply C; auto. intros ->. destruct (S q); discriminate.
       - symmetry. apply bsum_zero. intros. apply bsum_zero. auto. }
  rewrite (bsum_ext n' _ (fun p => bsum n (fun u => bsum n' (fun q => bsum n (fun v =>
    if S p && negb (S q) then (if (f u =? p) && (f v =? q) then W u v else 0%N) else 0%N)))))
    by (intros p Hp; apply bsum_swap).
  rewrite bsum_swap. apply bsum_ext. intros u Hu.
  rewrite (bsum_ext n' _ (fun p => bsum n (fun v => bsum n' (fun q =>
    if S p && negb (S q) then (if (f u =? p) && (f v =? q) then W u v else 0%N) else 0%N))))
    by (intros p Hp; apply bsum_swap).
  rewrite bsum_swap. apply bsum_ext. intros v Hv.
  rewrite (bsum_ext n' _ (fun p => if S p then (if f u =? p then (if negb (S (f v)) then W u v else 0%N) else 0%N) else 0%N)).
  - rewrite bsum_pick by auto. destruct (S (f u)), (S (f v)); reflexivity.
  - intros p Hp. destruct (S p); simpl; [|apply bsum_zero; auto].
    destruct (f u =? p); simpl; [|apply bsum_zero; intros; destruct (negb (S i)); auto].
    apply bsum_pick with (f := fun _ => W u v). auto.
Qed.

Lemma proper_pull n f n' S : clustering n f n' -> proper n' S -> proper n (fun u => S (f u)).
Proof.
  intros [_ Sj] [[p [Hp Ep]] [q [Hq Eq]]].
  destruct (Sj p Hp) as [u [Hu Fu]]. destruct (Sj q Hq) as [v [Hv Fv]].
  split; [exists u|exists v]; split; auto; congruence.
Qed.

(** a cut that separates no cluster descends to the contracted graph *)
Lemma descend n f n' (S : nat -> bool) : clustering n f n' ->
  (forall u v, u < n -> v < n -> f u = f v -> S u = S v) ->
  exists S', forall u, u < n -> S' (f u) = S u.
Proof.
  intros [R _] H. exists (fun p => existsb (fun u => (f u =? p) && S u) (seq 0 n)).
  intros u Hu. destruct (S u) eqn:E.
  - apply existsb_exists. exists u. rewrite Nat.eqb_refl, E. split; [apply in_seq; lia|reflexivity].
  - apply existsb_false. intros v Hv. apply in_seq in Hv.
    destruct (Nat.eqb_spec (f v) (f u)) as [F|F]; [|reflexivity]. simpl. rewrite (H v u); auto. lia.
Qed.

Lemma proper_push n f n' S S' : clustering n f n' -> (forall u, u < n -> S' (f u) = S u) -> proper n S -> proper n' S'.
Proof.
  intros [R _] E [[u [Hu Eu]] [v [Hv Ev]]]. split; [exists (f u)|exists (f v)]; rewrite E; auto.
Qed.

(** a contracted graph's cuts are cuts of the original *)
Lemma contraction_lower n W f n' W' : clustering n f n' -> contraction_of n W f n' W' ->
  forall c, (forall S, proper n S -> (c <= cutw n W S)%N) -> forall S', proper n' S' -> (c <= cutw n' W' S')%N.
Proof.
  intros Cl C c H S' P. rewrite (contraction_cut n W f) by (auto; apply Cl). apply H.
  apply (proper_pull _ _ _ _ Cl P).
Qed.

(** contracting pairs of connectivity at least c keeps all cuts below c *)
Lemma contraction_keeps n W f n' W' c : clustering n f n' -> contraction_of n W f n' W' ->
  (forall u v, u < n -> v < n -> f u = f v -> conn_ge n W c u v) ->
  forall S, proper n S -> (cutw n W S < c)%N -> exists S', proper n' S' /\ cutw n' W' S' = cutw n W S.
Proof.
  intros Cl C H S P L.
  destruct (descend n f n' S Cl) as [S' E].
  { intros u v Hu Hv F. destruct (Bool.bool_dec (S u) (S v)) as [X|X]; [auto|].
    specialize (H u v Hu Hv F S X). lia. }
  exists S'. split; [apply (proper_push _ _ _ _ _ Cl E P)|].
  rewrite (contraction_cut n W f) by (auto; apply Cl). apply cutw_ext. auto.
Qed.

Lemma contraction_compose n W f n1 W1 h n2 W2 : (forall u, u < n -> f u < n1) ->
  contraction_of n W f n1 W1 -> contraction_of n1 W1 h n2 W2 -> contraction_of n W (fun u => h (f u)) n2 W2.
Proof.
  intros R C1 C2 p q Hp Hq Npq. rewrite C2 by auto.
  rewrite (bsum_ext n1 _ (fun a => bsum n1 (fun b => bsum n (fun u => bsum n (fun v =>
    if (h a =? p) && (h b =? q) then (if (f u =? a) && (f v =? b) then W u v else 0%N) else 0%N))))).
  2: { intros a Ha. apply bsum_ext. intros b Hb. destruct ((h a =? p) && (h b =? q)) eqn:E.
       - apply C1; auto. intros ->. apply andb_prop in E. destruct E as [E1 E2].
         apply Nat.eqb_eq in E1. apply Nat.eqb_eq in E2. congruence.
       - symmetry. apply bsum_zero. intros. apply bsum_zero. auto. }
  rewrite (bsum_ext n1 _ (fun a => bsum n (fun u => bsum n1 (fun b => bsum n (fun v =>
    if (h a =? p) && (h b =? q) then (if (f u =? a) && (f v =? b) then W u v else 0%N) else 0%N)))))
    by (intros; apply bsum_swap).
  rewrite bsum_swap. apply bsum_ext. intros u Hu.
  rewrite (bsum_ext n1 _ (fun a => bsum n (fun v => bsum n1 (fun b =>
    if (h a =? p) && (h b =? q) then (if (f u =? a) && (f v =? b) then W u v else 0%N) else 0%N))))
    by (intros; apply bsum_swap).
  rewrite bsum_swap. apply bsum_ext. intros v Hv.
  rewrite (bsum_ext n1 _ (fun a => if h a =? p then (if f u =? a then (if h (f v) =? q then W u v else 0%N) else 0%N) else 0%N)).
  - rewrite (bsum_pick n1 (f u) (fun _ => if h (f v) =? q then W u v else 0%N) (fun a => h a =? p)) by auto.
    destruct (h (f u) =? p), (h (f v) =? q); reflexivity.
  - intros a Ha. destruct (h a =? p); simpl; [|apply bsum_zero; auto].
    destruct (f u =? a); simpl; [|apply bsum_zero; intros; destruct (h i =? q); auto].
    apply (bsum_pick n1 (f v) (fun _ => W u v) (fun b => h b =? q)). auto.
Qed.

Lemma clustering_compose n f n1 h n2 : clustering n f n1 -> clustering n1 h n2 -> clustering n (fun u => h (f u)) n2.
Proof.
  intros [R1 S1] [R2 S2]. split; [auto|]. intros p Hp. destruct (S2 p Hp) as [a [Ha Ea]].
  destruct (S1 a Ha) as [u [Hu Eu]]. exists u. split; [auto|congruence].
Qed.

(** the maximum adjacency order argument, for keys capped at c *)
Definition dto (W : wfun) (l : list nat) (y : nat) : N := sumN (fun x => W x y) l.
Definition cutin (W : wfun) (S : nat -> bool) (l : list nat) : N :=
  sumN (fun u => sumN (fun v => if S u && negb (S v) then W u v else 0%N) l) l.

(** l is the order of scanning, latest first: each vertex had the maximal capped adjacency to the
    vertices scanned before it *)
Fixpoint ma_order (n : nat) (W : wfun) (c : N) (l : list nat) : Prop :=
  match l with
  | [] => True
  | z :: l' => (forall t, t < n -> ~ In t (z :: l') -> (N.min c (dto W l' t) <= N.min c (dto W l' z))%N) /\ ma_order n W c l'
  end.

Lemma cutin_cons W S y l : cutin W S (y :: l) =
  (cutin W S l + (if S y then sumN (fun v => if S v then 0%N else W y v) l else sumN (fun u => if S u then W u y else 0%N) l))%N.
Proof.
  unfold cutin. cbn [sumN]. rewrite sumN_add.
  replace (if S y && negb (S y) then W y y else 0%N)%N with 0%N by (destruct (S y); reflexivity).
  rewrite N.add_0_l.
  destruct (S y) eqn:E.
  - rewrite (sumN_zero (fun x => if S x && negb true then W x y else 0%N)%N)
      by (intros x _; destruct (S x); reflexivity).
    rewrite N.add_0_l, N.add_comm. f_equal. apply sumN_ext. intros v _. destruct (S v); reflexivity.
  - simpl. rewrite (sumN_zero (fun v => 0%N)) by auto. rewrite N.add_0_l, N.add_comm.
    f_equal. apply sumN_ext. intros u _. destruct (S u); reflexivity.
Qed.

Lemma ma_cutin n W c S : symm n W -> forall l y, (forall x, In x l -> x < n) -> y < n -> NoDup l -> ~ In y l ->
  ma_order n W c l -> (exists z l', l = z :: l' /\ S z <> S y) ->
  (N.min c (dto W l y) <= cutin W S (y :: l))%N.
Proof.
  intros Sy. induction l as [|z l IH]; intros y R Hy ND Ny MA [z0 [l0 [E0 D]]]; [discriminate|].
  inversion E0; subst z0 l0. clear E0.
  assert (Hz : z < n) by (apply R; left; auto).
  apply NoDup_cons_iff in ND. destruct ND as [Nz ND].
  destruct MA as [M MA].
  assert (Ny' : ~ In y l) by (intro; apply Ny; right; auto).
  assert (X : (cutin W S (y :: z :: l) >= cutin W S (y :: l) + W z y)%N /\
              (cutin W S (y :: z :: l) >= cutin W S (z :: l) + W z y)%N).
  { rewrite !cutin_cons. cbn [sumN].
    destruct (S y) eqn:Ey, (S z) eqn:Ez; try congruence; rewrite ?(Sy y z) by auto; split; lia. }
  destruct X as [X1 X2].
  unfold dto. cbn [sumN]. fold (dto W l y).
  destruct l as [|z' l'].
  - unfold dto. simpl. lia.
  - destruct (Bool.bool_dec (S z') (S y)) as [E|E].
    + assert (I : (N.min c (dto W (z' :: l') z) <= cutin W S (z :: z' :: l'))%N).
      { apply IH; auto.
        - intros x Hx. apply R. right. auto.
        - exists z', l'. split; [auto|congruence]. }
      specialize (M y Hy Ny). lia.
    + assert (I : (N.min c (dto W (z' :: l') y) <= cutin W S (y :: z' :: l'))%N).
      { apply IH; auto.
        - intros x Hx. apply R. right. auto.
        - exists z', l'. auto. }
      lia.
Qed.

Lemma sumN_incl (f : nat -> N) n : forall l, NoDup l -> (forall x, In x l -> x < n) -> (sumN f l <= bsum n f)%N.
Proof.
  intros l ND R. unfold bsum.
  rewrite (sumN_split f (fun x => existsb (Nat.eqb x) l) (seq 0 n)).
  rewrite <- sumN_filter.
  rewrite (sumN_perm f l (filter (fun x => existsb (Nat.eqb x) l) (seq 0 n))); [lia|].
  apply NoDup_Permutation; [auto|apply NoDup_filter, seq_NoDup|].
  intro x. rewrite filter_In, in_seq. split.
  - intro H. split; [specialize (R x H); lia|]. apply existsb_exists. exists x. split; [auto|apply Nat.eqb_refl].
  - intros [_ H]. apply existsb_exists in H. destruct H as [y [Hy E]]. apply Nat.eqb_eq in E. congruence.
Qed.

Lemma cutin_le n W S l : NoDup l -> (forall x, In x l -> x < n) -> (cutin W S l <= cutw n W S)%N.
Proof.
  intros ND R. unfold cutin, cutw. 
  transitivity (sumN (fun u => bsum n (fun v => if S u && negb (S v) then W u v else 0%N)) l).
  - apply sumN_le. intros u Hu. apply sumN_incl with (f := fun v => if S u && negb (S v) then W u v else 0%N); auto.
  - apply sumN_incl with (f := fun u => bsum n (fun v => if S u && negb (S v) then W u v else 0%N)); auto.
Qed.

(** the last scanned vertex x and an unscanned y with adjacency at least c to the scanned ones *)
Lemma ma_conn n W c x l y : symm n W -> (forall t, In t (x :: l) -> t < n) -> y < n -> NoDup (x :: l) ->
  ~ In y (x :: l) -> ma_order n W c (x :: l) -> (c <= dto W (x :: l) y)%N -> conn_ge n W c x y.
Proof.
  intros Sy R Hy ND Ny MA L S D.
  assert (A : (N.min c (dto W (x :: l) y) <= cutin W S (y :: x :: l))%N).
  { apply ma_cutin with n; auto. exists x, l. auto. }
  rewrite N.min_l in A by auto. etransitivity; [exact A|]. apply cutin_le.
  - constructor; auto.
  - intros t [<-|Ht]; auto.
Qed.

(** a checker for concrete graphs *)
Definition undirectedb (g : graph) : bool :=
  forallb (fun u => forallb (fun e => (fst e <? length g) && negb (fst e =? u)) (nth u g [])) (seq 0 (length g)) &&
  forallb (fun u => forallb (fun v => (wt g u v =? wt g v u)%N) (seq 0 (length g))) (seq 0 (length g)).

Lemma undirectedb_ok g : undirectedb g = true -> undirected g.
Proof.
  unfold undirectedb. intro H. apply andb_prop in H. destruct H as [H1 H2]. rewrite forallb_forall in H1, H2. split.
  - intros u v w I. destruct (Nat.lt_ge_cases u (length g)) as [L|L]; [|rewrite nth_overflow in I by auto; contradiction].
    specialize (H1 u ltac:(apply in_seq; lia)). rewrite forallb_forall in H1. specialize (H1 _ I). apply andb_prop in H1.
    destruct H1 as [A B]. apply Nat.ltb_lt in A. apply negb_true_iff, Nat.eqb_neq in B. auto.
  - intros u v Hu Hv. specialize (H2 u ltac:(apply in_seq; lia)). rewrite forallb_forall in H2.
    apply N.eqb_eq. apply H2. apply in_seq. lia.
Qed.
