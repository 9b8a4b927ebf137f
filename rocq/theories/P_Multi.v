(* P_Multi.v - facts about multiterminal cuts. *)
From Verif Require Import SpecRel P_Cut.
From Verif Require Export SpecMulti.

(** ** cost over ordered pairs *)
Definition dcost (n : nat) (W : wfun) (f : nat -> nat) : N :=
  bsum n (fun u => bsum n (fun v => if Nat.eqb (f u) (f v) then 0%N else W u v)).

Lemma dcost_half n W f : symm n W -> dcost n W f = (2 * mtcost n W f)%N.
Proof.
  intro Sy. unfold dcost, mtcost.
  transitivity (bsum n (fun u => bsum n (fun v => if (Nat.ltb u v && negb (Nat.eqb (f u) (f v)))%bool then W u v else 0%N)) +
                bsum n (fun u => bsum n (fun v => if (Nat.ltb v u && negb (Nat.eqb (f v) (f u)))%bool then W v u else 0%N)))%N.
  - rewrite <- bsum_add. apply bsum_ext. intros u Hu. rewrite <- bsum_add. apply bsum_ext. intros v Hv.
    rewrite (Sy v u) by auto. rewrite (Nat.eqb_sym (f v) (f u)). destruct (f u =? f v) eqn:E; [rewrite !andb_false_r; reflexivity|].
    cbn [negb]. rewrite !andb_true_r. destruct (lt_eq_lt_dec u v) as [[L|L]|L]; [| subst; rewrite Nat.eqb_refl in E; discriminate|].
    + rewrite (proj2 (Nat.ltb_lt u v) L), (proj2 (Nat.ltb_ge v u)) by lia. lia.
    + rewrite (proj2 (Nat.ltb_lt v u) L), (proj2 (Nat.ltb_ge u v)) by lia. lia.
  - rewrite (bsum_swap n n (fun u v => if (v <? u) && negb (f v =? f u) then W v u else 0%N)).
    lia.
Qed.

Lemma mtcost_ext n W W' f f' : (forall v, v < n -> f v = f' v) -> (forall u v, u < n -> v < n -> W u v = W' u v) ->
  mtcost n W f = mtcost n W' f'.
Proof.
  intros H K. unfold mtcost. apply bsum_ext. intros u Hu. apply bsum_ext. intros v Hv. rewrite !H, K by auto. reflexivity.
Qed.

(** cost only depends on which vertices share a block *)
Lemma mtcost_same n W f f' : (forall u v, u < n -> v < n -> (f u = f v <-> f' u = f' v)) -> mtcost n W f = mtcost n W f'.
Proof.
  intros H. unfold mtcost. apply bsum_ext. intros u Hu. apply bsum_ext. intros v Hv.
  replace (f u =? f v) with (f' u =? f' v); [reflexivity|].
  apply eq_true_iff_eq. rewrite !Nat.eqb_eq. symmetry. apply H; auto.
Qed.

(** ** moving one vertex *)
Definition mv (f : nat -> nat) (x b : nat) : nat -> nat := fun v => if v =? x then b else f v.
(** weight between x and the other vertices of block b *)
Definition att (n : nat) (W : wfun) (f : nat -> nat) (x b : nat) : N :=
  bsum n (fun v => if Nat.eqb v x then 0%N else if Nat.eqb (f v) b then W x v else 0%N).

Lemma mv_eq f x b : mv f x b x = b. Proof. unfold mv. rewrite Nat.eqb_refl. reflexivity. Qed.
Lemma mv_neq f x b v : v <> x -> mv f x b v = f v.
Proof. intro H. unfold mv. destruct (Nat.eqb_spec v x); [contradiction|reflexivity]. Qed.

Lemma att_ext n W f f' x b : (forall v, v < n -> v <> x -> f v = f' v) -> att n W f x b = att n W f' x b.
Proof.
  intro H. unfold att. apply bsum_ext. intros v Hv. destruct (Nat.eqb_spec v x); [reflexivity|]. rewrite H by auto. reflexivity.
Qed.

(** dcost split at x *)
Lemma dcost_split n W f x : symm n W -> x < n ->
  (dcost n W f + 2 * att n W f x (f x) = 2 * bsum n (fun v => if Nat.eqb v x then 0%N else W x v) +
   bsum n (fun u => bsum n (fun v => if (Nat.eqb u x || Nat.eqb v x || Nat.eqb (f u) (f v))%bool then 0%N else W u v)))%N.
Proof.
  intros Sy Hx. unfold dcost, att.
  set (A := bsum n (fun v => if Nat.eqb v x then 0%N else W x v)).
  set (B := bsum n (fun v => if Nat.eqb v x then 0%N else if Nat.eqb (f v) (f x) then W x v else 0%N)).
  set (C := bsum n (fun v => if Nat.eqb (f x) (f v) then 0%N else W x v)).
  assert (AB : (C + B = A)%N).
  { unfold A, B, C. rewrite <- bsum_add. apply bsum_ext. intros v Hv. destruct (Nat.eqb_spec v x) as [->|Nv].
    - rewrite Nat.eqb_refl. reflexivity.
    - rewrite (Nat.eqb_sym (f v) (f x)). destruct (f x =? f v); lia. }
  assert (D : bsum n (fun u => bsum n (fun v => if Nat.eqb (f u) (f v) then 0%N else W u v)) =
    (C + C + bsum n (fun u => bsum n (fun v => if (Nat.eqb u x || Nat.eqb v x || Nat.eqb (f u) (f v))%bool then 0%N else W u v)))%N).
  { transitivity (bsum n (fun u => (if Nat.eqb u x then C else 0) + (if Nat.eqb (f u) (f x) then 0%N else W u x) +
       bsum n (fun v => if (Nat.eqb u x || Nat.eqb v x || Nat.eqb (f u) (f v))%bool then 0%N else W u v)))%N.
    - apply bsum_ext. intros u Hu. destruct (Nat.eqb_spec u x) as [->|Nu].
      + cbn [orb]. rewrite (bsum_zero n (fun _ => 0%N)) by auto. rewrite Nat.eqb_refl. unfold C. lia.
      + cbn [orb]. pose proof (bsum_single n (fun v => if Nat.eqb (f u) (f v) then 0%N else W u v) x Hx) as X. cbn beta in X. rewrite <- X. clear X.
        rewrite N.add_0_l, <- bsum_add. apply bsum_ext. intros v Hv. destruct (Nat.eqb_spec v x) as [->|Nv]; cbn [orb]; lia.
    - rewrite !bsum_add. rewrite (bsum_single n (fun _ => C) x Hx). f_equal. f_equal.
      unfold C. apply bsum_ext. intros u Hu. rewrite (Nat.eqb_sym (f u) (f x)), (Sy u x) by auto. reflexivity. }
  rewrite D. lia.
Qed.

Lemma move_cost n W f x b : symm n W -> x < n ->
  (mtcost n W (mv f x b) + att n W f x b = mtcost n W f + att n W f x (f x))%N.
Proof.
  intros Sy Hx. pose proof (dcost_split n W f x Sy Hx) as H1. pose proof (dcost_split n W (mv f x b) x Sy Hx) as H2.
  rewrite mv_eq in H2. rewrite !dcost_half in * by auto.
  rewrite (att_ext n W (mv f x b) f x b) in H2 by (intros v _ Nv; apply mv_neq; auto).
  assert (E : bsum n (fun u => bsum n (fun v => if (Nat.eqb u x || Nat.eqb v x || Nat.eqb (mv f x b u) (mv f x b v))%bool then 0%N else W u v)) =
              bsum n (fun u => bsum n (fun v => if (Nat.eqb u x || Nat.eqb v x || Nat.eqb (f u) (f v))%bool then 0%N else W u v))).
  { apply bsum_ext. intros u Hu. apply bsum_ext. intros v Hv. destruct (Nat.eqb_spec u x) as [->|Nu]; [reflexivity|]. destruct (Nat.eqb_spec v x) as [->|Nv]; [reflexivity|].
    cbn [orb]. rewrite !mv_neq by auto. reflexivity. }
  rewrite E in H2. lia.
Qed.

Lemma move_le n W f x b : symm n W -> x < n -> (att n W f x (f x) <= att n W f x b)%N -> (mtcost n W (mv f x b) <= mtcost n W f)%N.
Proof. intros Sy Hx H. pose proof (move_cost n W f x b Sy Hx). lia. Qed.

Lemma mv_separates n ts f x b : separates n ts f -> b < length ts -> ~ In x ts -> separates n ts (mv f x b).
Proof.
  intros [A B] Hb Nx. split.
  - intros v Hv. unfold mv. destruct (v =? x); auto.
  - intros i Hi. rewrite mv_neq; [auto|]. intro E. apply Nx. rewrite <- E. apply nth_In. auto.
Qed.

Lemma att_ge n W f x b y : y < n -> y <> x -> f y = b -> (W x y <= att n W f x b)%N.
Proof.
  intros Hy Ny E. unfold att. rewrite <- (bsum_single n (W x) y Hy). apply bsum_le. intros v Hv.
  destruct (Nat.eqb_spec v y) as [->|]; [|lia]. destruct (Nat.eqb_spec y x); [contradiction|]. rewrite E, Nat.eqb_refl. lia.
Qed.

(** blocks b and b' together weigh at most the degree *)
Lemma att_two n W f x b b' : b <> b' -> (att n W f x b + att n W f x b' <= bsum n (fun v => if Nat.eqb v x then 0%N else W x v))%N.
Proof.
  intro Nb. unfold att. rewrite <- bsum_add. apply bsum_le. intros v Hv. destruct (v =? x); [lia|].
  destruct (Nat.eqb_spec (f v) b), (Nat.eqb_spec (f v) b'); first [lia | congruence].
Qed.

(** ** contraction *)
Lemma separates_ext n ts f f' : (forall t, In t ts -> t < n) -> (forall v, v < n -> f v = f' v) -> separates n ts f -> separates n ts f'.
Proof.
  intros T H [A B]. split.
  - intros v Hv. rewrite <- H by auto. auto.
  - intros i Hi. rewrite <- H; [auto|]. apply T, nth_In. auto.
Qed.

Lemma contraction_cost n W g n' W' f : symm n W -> symm n' W' -> (forall u, u < n -> g u < n') -> contraction_of n W g n' W' ->
  mtcost n' W' f = mtcost n W (fun u => f (g u)).
Proof.
  intros S1 S2 Hg C. cut (dcost n' W' f = dcost n W (fun u => f (g u))).
  { intro H. rewrite !dcost_half in H by auto. lia. }
  unfold dcost. unfold contraction_of in C.
  transitivity (bsum n' (fun a => bsum n' (fun b => if Nat.eqb (f a) (f b) then 0%N else
     bsum n (fun u => bsum n (fun v => if (Nat.eqb (g u) a && Nat.eqb (g v) b)%bool then W u v else 0%N))))).
  - apply bsum_ext. intros a Ha. apply bsum_ext. intros b Hb. destruct (Nat.eqb_spec (f a) (f b)) as [E|E]; [reflexivity|].
    rewrite C by (auto; congruence). reflexivity.
  - transitivity (bsum n' (fun a => bsum n' (fun b => bsum n (fun u => bsum n (fun v =>
        if Nat.eqb a (g u) then if Nat.eqb b (g v) then (if Nat.eqb (f a) (f b) then 0%N else W u v) else 0%N else 0%N))))).
    { apply bsum_ext. intros a Ha. apply bsum_ext. intros b Hb. destruct (f a =? f b).
      - symmetry. apply bsum_zero. intros u Hu. apply bsum_zero. intros v Hv. destruct (a =? g u), (b =? g v); reflexivity.
      - apply bsum_ext. intros u Hu. apply bsum_ext. intros v Hv. rewrite (Nat.eqb_sym (g u) a), (Nat.eqb_sym (g v) b). destruct (a =? g u), (b =? g v); reflexivity. }
    transitivity (bsum n (fun u => bsum n (fun v => bsum n' (fun a => bsum n' (fun b =>
        if Nat.eqb a (g u) then if Nat.eqb b (g v) then (if Nat.eqb (f a) (f b) then 0%N else W u v) else 0%N else 0%N))))).
    { transitivity (bsum n' (fun a => bsum n (fun u => bsum n (fun v => bsum n' (fun b =>
        if Nat.eqb a (g u) then if Nat.eqb b (g v) then (if Nat.eqb (f a) (f b) then 0%N else W u v) else 0%N else 0%N))))).
      - apply bsum_ext. intros a Ha. rewrite bsum_swap. apply bsum_ext. intros u Hu. rewrite bsum_swap. reflexivity.
      - rewrite bsum_swap. apply bsum_ext. intros u Hu. rewrite bsum_swap. reflexivity. }
    apply bsum_ext. intros u Hu. apply bsum_ext. intros v Hv.
    transitivity (bsum n' (fun a => if Nat.eqb a (g u) then (if Nat.eqb (f a) (f (g v)) then 0%N else W u v) else 0%N)).
    + apply bsum_ext. intros a Ha. destruct (a =? g u); [|apply bsum_zero; auto].
      apply (bsum_single n' (fun b => if Nat.eqb (f a) (f b) then 0%N else W u v) (g v)). auto.
    + apply (bsum_single n' (fun a => if Nat.eqb (f a) (f (g v)) then 0%N else W u v) (g u)). auto.
Qed.

(** R is a safe set of pairs: every assignment can be improved to one that respects them *)
Definition safe_pairs (n : nat) (W : wfun) (ts : list nat) (R : nat -> nat -> Prop) : Prop :=
  forall f, separates n ts f -> exists f', separates n ts f' /\ (mtcost n W f' <= mtcost n W f)%N /\
    forall a b, a < n -> b < n -> R a b -> f' a = f' b.

Lemma push_down n g n' (f : nat -> nat) : clustering n g n' -> (forall u v, u < n -> v < n -> g u = g v -> f u = f v) ->
  exists f', forall u, u < n -> f' (g u) = f u.
Proof.
  intros [Hg Hs] H. 
  exists (fun c => match find (fun u => g u =? c) (seq 0 n) with Some u => f u | None => 0 end).
  intros u Hu. destruct (find (fun u0 => g u0 =? g u) (seq 0 n)) as [w|] eqn:E.
  - apply find_some in E. destruct E as [I E]. apply in_seq in I. apply Nat.eqb_eq in E. apply H; auto; lia.
  - exfalso. pose proof (find_none _ _ E u ltac:(apply in_seq; lia)) as X. cbn beta in X. rewrite Nat.eqb_refl in X. discriminate.
Qed.

(** contracting safe pairs keeps the optimum *)
Theorem safe_contraction n W ts (R : nat -> nat -> Prop) g n' W' : symm n W -> symm n' W' -> (forall t, In t ts -> t < n) ->
  clustering n g n' -> contraction_of n W g n' W' -> (forall u v, u < n -> v < n -> g u = g v -> R u v) ->
  safe_pairs n W ts R -> forall c, mtopt n W ts c <-> mtopt n' W' (map g ts) c.
Proof.
  intros S1 S2 HT CL C HR SP.
  assert (CC : forall f, mtcost n' W' f = mtcost n W (fun u => f (g u))) by (intro f; apply contraction_cost; auto; apply CL).
  (* every assignment of the small graph gives one of the large graph *)
  assert (UP : forall f, separates n' (map g ts) f -> separates n ts (fun u => f (g u))).
  { intros f [A B]. rewrite map_length in *. split; [intros v Hv; apply A, CL; auto|]. intros i Hi.
    rewrite <- (B i Hi) at 2. rewrite (nth_indep (map g ts) 0 (g 0)) by (rewrite map_length; auto). rewrite map_nth. reflexivity. }
  assert (DN : forall f, separates n ts f -> exists f', separates n' (map g ts) f' /\ (mtcost n' W' f' <= mtcost n W f)%N).
  { intros f F. destruct (SP f F) as (f1 & [A B] & L & K).
    destruct (push_down n g n' f1 CL) as [f' E]; [intros u v Hu Hv G; apply K; auto|].
    exists f'. split.
    - split; rewrite map_length.
      + intros v Hv. destruct (proj2 CL v Hv) as [u [Hu <-]]. rewrite E by auto. auto.
      + intros i Hi. rewrite (nth_indep (map g ts) 0 (g 0)) by (rewrite map_length; auto). rewrite map_nth, E; [auto|]. apply HT, nth_In. auto.
    - rewrite CC. rewrite (mtcost_ext n W W (fun u => f' (g u)) f1); auto. }
  intro c. split; intros [[f [F E]] L].
  - destruct (DN f F) as (f' & F' & L'). assert (mtcost n' W' f' = c).
    { apply N.le_antisymm; [lia|]. rewrite CC. apply L, UP. auto. }
    split; [exists f'; auto|]. intros f2 F2. rewrite CC. apply L, UP. auto.
  - assert (LL : forall f2, separates n ts f2 -> (c <= mtcost n W f2)%N).
    { intros f2 F2. destruct (DN f2 F2) as (f3 & F3 & L3). specialize (L f3 F3). lia. }
    split; [|auto]. exists (fun u => f (g u)). split; [apply UP; auto|]. rewrite <- CC. auto.
Qed.

(** ** building a set of safe pairs one after the other *)
Record kinv (n : nat) (W : wfun) (ts : list nat) (ps : list (nat * nat)) (Rt : nat -> Prop) : Prop := {
  k_root : forall y, y < n -> exists r, Rt r /\ conn ps y r;
  k_uniq : forall r r', Rt r -> Rt r' -> conn ps r r' -> r = r';
  k_ex : forall f, separates n ts f -> exists f', separates n ts f' /\ (mtcost n W f' <= mtcost n W f)%N /\
    (forall a b, conn ps a b -> f' a = f' b) /\ forall r, Rt r -> f' r = f r }.

Lemma conn_nil_eq x y : conn [] x y -> x = y.
Proof. intro H. induction H; auto; [contradiction|congruence]. Qed.

Lemma kinv_init n W ts : kinv n W ts [] (fun _ => True).
Proof.
  constructor.
  - intros y _. exists y. split; [auto|constructor].
  - intros r r' _ _ H. apply conn_nil_eq; auto.
  - intros f F. exists f. split; [auto|]. split; [lia|]. split; [|auto]. intros a b H. apply conn_nil_eq in H. congruence.
Qed.

Lemma conn_snoc ps a b x y : conn (ps ++ [(a, b)]) x y ->
  conn ps x y \/ (conn ps x a /\ conn ps b y) \/ (conn ps x b /\ conn ps a y).
Proof.
  intro H. induction H as [x|x y H|x y H IH|x y z H1 IH1 H2 IH2].
  - left. constructor.
  - apply in_app_or in H. destruct H as [H|[H|[]]]; [left; constructor 2; auto|]. injection H as -> ->. right. left. split; constructor.
  - destruct IH as [A|[[A B]|[A B]]]; [left; apply conn_sym; auto|right; right|right; left]; split; apply conn_sym; auto.
  - destruct IH1 as [A|[[A B]|[A B]]], IH2 as [C|[[C D]|[C D]]].
    + left. eapply conn_trans; eauto.
    + right. left. split; auto. eapply conn_trans; eauto.
    + right. right. split; auto. eapply conn_trans; eauto.
    + right. left. split; auto. eapply conn_trans; eauto.
    + right. left. auto.
    + left. eapply conn_trans; eauto.
    + right. right. split; auto. eapply conn_trans; eauto.
    + left. eapply conn_trans; eauto.
    + right. right. auto.
Qed.

Lemma conn_dup ps a b : conn ps a b -> forall x y, conn (ps ++ [(a, b)]) x y <-> conn ps x y.
Proof.
  intros H x y. split.
  - intro C. apply conn_snoc in C. destruct C as [C|[[C D]|[C D]]]; auto.
    + eapply conn_trans; [exact C|]. eapply conn_trans; eauto.
    + eapply conn_trans; [exact C|]. eapply conn_trans; [apply conn_sym; exact H|auto].
  - apply conn_mono, incl_appl, incl_refl.
Qed.

Lemma kinv_add n W ts ps Rt a b : kinv n W ts ps Rt -> a < n -> b < n ->
  (forall rho f, Rt rho -> conn ps a rho -> ~ conn ps a b -> separates n ts f -> (forall x y, conn ps x y -> f x = f y) -> f a <> f b ->
     exists f2, separates n ts f2 /\ (mtcost n W f2 <= mtcost n W f)%N /\ f2 rho = f b /\ forall r, Rt r -> r <> rho -> f2 r = f r) ->
  exists Rt', kinv n W ts (ps ++ [(a, b)]) Rt' /\
    ((conn ps a b /\ forall r, Rt' r <-> Rt r) \/
     (~ conn ps a b /\ exists rho, Rt rho /\ conn ps a rho /\ forall r, Rt' r <-> Rt r /\ r <> rho)).
Proof.
  intros [K1 K2 K3] Ha Hb H. destruct (K1 a Ha) as (ra & Ra & Ca). destruct (K1 b Hb) as (rb & Rb & Cb).
  destruct (Nat.eq_dec ra rb) as [->|Nr].
  - assert (C : conn ps a b) by (eapply conn_trans; [exact Ca|apply conn_sym; auto]).
    exists Rt. split; [|left; split; [auto|tauto]]. constructor.
    + intros y Hy. destruct (K1 y Hy) as (r & R & C'). exists r. split; auto. apply conn_dup; auto.
    + intros r r' R R' C'. apply K2; auto. apply conn_dup in C'; auto.
    + intros f F. destruct (K3 f F) as (f' & F' & L & E & Q). exists f'. split; [auto|]. split; [auto|]. split; [|auto].
      intros x y C'. apply E. apply conn_dup in C'; auto.
  - assert (NC : ~ conn ps a b).
    { intro C. apply Nr, K2; auto. eapply conn_trans; [apply conn_sym; exact Ca|]. eapply conn_trans; [exact C|auto]. }
    assert (UP : forall x y, conn ps x y -> conn (ps ++ [(a, b)]) x y) by (intros x y; apply conn_mono, incl_appl, incl_refl).
    assert (AB : conn (ps ++ [(a, b)]) a b) by (apply conn_pair, in_or_app; right; left; auto).
    exists (fun r => Rt r /\ r <> ra). split.
    + constructor.
      * intros y Hy. destruct (K1 y Hy) as (r & R & C'). destruct (Nat.eq_dec r ra) as [->|N'].
        -- exists rb. split; [auto|]. eapply conn_trans; [apply UP; exact C'|]. eapply conn_trans; [apply UP, conn_sym; exact Ca|].
           eapply conn_trans; [exact AB|auto].
        -- exists r. auto.
      * intros r r' [R N1] [R' N2] C'. apply conn_snoc in C'. destruct C' as [C'|[[C' D]|[C' D]]]; [apply K2; auto| |].
        -- exfalso. apply N1, K2; auto. eapply conn_trans; eauto.
        -- exfalso. apply N2. apply K2; auto. apply conn_sym. eapply conn_trans; [apply conn_sym; exact Ca|auto].
      * intros f F. destruct (K3 f F) as (f1 & F1 & L1 & E1 & Q1).
        assert (exists f2, separates n ts f2 /\ (mtcost n W f2 <= mtcost n W f1)%N /\ f2 ra = f1 b /\ forall r, Rt r -> r <> ra -> f2 r = f1 r) as (f2 & F2 & L2 & E2 & Q2).
        { destruct (Nat.eq_dec (f1 a) (f1 b)) as [E|N'].
          - exists f1. split; [auto|]. split; [lia|]. split; [|auto]. rewrite <- E. symmetry. apply E1. auto.
          - apply H; auto. }
        destruct (K3 f2 F2) as (f3 & F3 & L3 & E3 & Q3). exists f3. split; [auto|]. split; [lia|]. split.
        -- assert (X : f3 a = f3 b).
           { rewrite (E3 a ra Ca), Q3, E2 by auto. rewrite (E3 b rb Cb), Q3, Q2 by auto. apply E1. auto. }
           intros x y C'. apply conn_snoc in C'. destruct C' as [C'|[[C' D]|[C' D]]]; [auto| |].
           ++ rewrite (E3 x a C'), X. auto.
           ++ rewrite (E3 x b C'), <- X. auto.
        -- intros r [R N']. rewrite Q3, Q2, Q1; auto.
    + right. split; [auto|]. exists ra. split; [auto|]. split; [auto|]. intro r. tauto.
Qed.

(** moving a single root vertex *)
Lemma kinv_move n W ts ps Rt a b : kinv n W ts ps Rt -> symm n W -> a < n -> b < n -> Rt a -> ~ In a ts ->
  (forall f, separates n ts f -> f a <> f b -> (att n W f a (f a) <= att n W f a (f b))%N) ->
  exists Rt', kinv n W ts (ps ++ [(a, b)]) Rt' /\ forall r, Rt r -> r <> a -> Rt' r.
Proof.
  intros K Sy Ha Hb Ra Na H. destruct (kinv_add n W ts ps Rt a b K Ha Hb) as (Rt' & K' & D).
  - intros rho f Rr C NC F E N'. assert (rho = a) by (apply (k_uniq _ _ _ _ _ K); auto; apply conn_sym; auto). subst rho.
    exists (mv f a (f b)). split; [apply mv_separates; auto; apply F; auto|]. split; [apply move_le; auto|]. split; [apply mv_eq|].
    intros r _ Nr. apply mv_neq. auto.
  - exists Rt'. split; [auto|]. intros r R N'. destruct D as [[_ D]|[_ (rho & Rr & C & D)]]; apply D; auto.
    split; [auto|]. intros ->. apply N', (k_uniq _ _ _ _ _ K); auto. apply conn_sym. auto.
Qed.

Lemma kinv_safe n W ts ps Rt : kinv n W ts ps Rt -> safe_pairs n W ts (conn ps).
Proof. intros K f F. destruct (k_ex _ _ _ _ _ K f F) as (f' & F' & L & E & _). exists f'. auto. Qed.
