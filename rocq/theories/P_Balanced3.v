(* P_Balanced3.v - minimum cuts of a cactus in terms of a depth first search tree. *)
From Verif Require Import SpecCut P_Cut SpecCactus M_Balanced P_Balanced P_Balanced2.

(** ** cuts by their crossing pairs *)
Definition pairs (n : nat) : list (nat * nat) := flat_map (fun u => map (fun v => (u, v)) (seq 0 n)) (seq 0 n).
Lemma in_pairs n u v : In (u, v) (pairs n) <-> u < n /\ v < n.
Proof.
  unfold pairs. rewrite in_flat_map. split.
  - intros (x & Hx & I). apply in_map_iff in I as (y & E & Hy). injection E as <- <-. apply in_seq in Hx, Hy. lia.
  - intros [A B]. exists u. split; [apply in_seq; lia|]. apply in_map. apply in_seq. lia.
Qed.
Lemma cutw_pairs n W S : cutw n W S = sumN (fun e => if S (fst e) && negb (S (snd e)) then W (fst e) (snd e) else 0%N) (pairs n).
Proof. unfold cutw, bsum, pairs. rewrite sumN_flat_map. apply sumN_ext. intros u _. rewrite sumN_map. reflexivity. Qed.
Definition crossing (n : nat) (W : wfun) (S : nat -> bool) (e : nat * nat) : Prop :=
  fst e < n /\ snd e < n /\ S (fst e) = true /\ S (snd e) = false /\ W (fst e) (snd e) <> 0%N.
Lemma cutw_ge n W S l : NoDup l -> (forall e, In e l -> crossing n W S e) -> (sumN (fun e => W (fst e) (snd e)) l <= cutw n W S)%N.
Proof.
  intros Nd H. rewrite cutw_pairs. etransitivity; [|apply (sumN_incl _ l); [exact Nd|]].
  - apply sumN_le. intros e I. destruct (H e I) as (_ & _ & A & B & _). rewrite A, B. cbn. lia.
  - intros [u v] I. destruct (H _ I) as (A & B & _). apply in_pairs. auto.
Qed.
Lemma sumN_support {A} (dec : forall x y : A, {x = y} + {x <> y}) (f : A -> N) (l l' : list A) : NoDup l' -> (forall x, In x l' -> ~ In x l -> f x = 0%N) -> (sumN f l' <= sumN f l)%N.
Proof.
  intros Nd Z. set (p := fun x => if in_dec dec x l then true else false).
  transitivity (sumN f (filter p l')).
  - clear Nd. induction l' as [|x l' IH]; [cbn; lia|]. cbn [filter]. assert (IH' : (sumN f l' <= sumN f (filter p l'))%N) by (apply IH; intros y I; apply Z; right; exact I).
    unfold p at 1. destruct (in_dec dec x l) as [I|I]; [unfold sumN in *; cbn; lia|]. specialize (Z x (or_introl eq_refl) I). unfold sumN in *. cbn. lia.
  - apply sumN_incl; [apply NoDup_filter; exact Nd|]. intros x I. apply filter_In in I as [_ I]. unfold p in I. destruct (in_dec dec x l); [auto|discriminate I].
Qed.
Lemma sumN_filter_split {A} (f : A -> N) (p : A -> bool) l : sumN f l = (sumN f (filter p l) + sumN f (filter (fun x => negb (p x)) l))%N.
Proof. unfold sumN. induction l as [|x l IH]; [reflexivity|]. cbn. rewrite IH. destruct (p x); cbn; lia. Qed.
Lemma pairs_nodup n : NoDup (pairs n).
Proof.
  unfold pairs. assert (H : forall l : list nat, NoDup l -> NoDup (flat_map (fun u => map (fun v : nat => (u, v)) (seq 0 n)) l)).
  { induction l as [|u l IH]; intro Nd; [constructor|]. inversion Nd; subst. cbn. apply NoDup_app_in; [|apply IH; auto|].
    - apply FinFun.Injective_map_NoDup; [intros a b E; congruence|apply seq_NoDup].
    - intros [a b] I1 I2. apply in_map_iff in I1 as (y & E & _). injection E as <- <-. apply in_flat_map in I2 as (x & Ix & I2). apply in_map_iff in I2 as (z & E & _). injection E as -> _. contradiction. }
  apply H. apply seq_NoDup.
Qed.
Lemma cutw_le n W S l : (forall e, crossing n W S e -> In e l) -> (cutw n W S <= sumN (fun e => W (fst e) (snd e)) l)%N.
Proof.
  intro H. rewrite cutw_pairs. transitivity (sumN (fun e => if S (fst e) && negb (S (snd e)) then W (fst e) (snd e) else 0%N) l).
  - apply sumN_support; [decide equality; apply Nat.eq_dec|apply pairs_nodup|]. intros [u v] I N. apply in_pairs in I as [A B]. cbn [fst snd].
    destruct (S u) eqn:Su, (S v) eqn:Sv; try reflexivity. cbn. destruct (N.eq_dec (W u v) 0) as [Z|Z]; [exact Z|]. exfalso. apply N. apply H. repeat split; auto.
  - apply sumN_le. intros e _. destruct (_ && _); lia.
Qed.

(** ** cycles *)
Lemma cv_mod q i : cv q (i mod length q) = cv q i.
Proof. unfold cv. destruct q as [|x q]; [reflexivity|]. rewrite Nat.mod_mod by discriminate. reflexivity. Qed.
Lemma cv_add q i : q <> [] -> cv q (i + length q) = cv q i.
Proof. intro H. unfold cv. replace (i + length q) with (i + 1 * length q) by lia. rewrite Nat.mod_add; [reflexivity|]. destruct q; [congruence|discriminate]. Qed.
Lemma cv_succ q i : q <> [] -> cv q (S (i mod length q)) = cv q (S i).
Proof. intro H. assert (L : length q <> 0) by (destruct q; [congruence|discriminate]). unfold cv. rewrite <- Nat.add_1_r, Nat.add_mod_idemp_l by exact L. rewrite Nat.add_1_r. reflexivity. Qed.
Lemma cv_inj q i j : NoDup q -> i < length q -> j < length q -> cv q i = cv q j -> i = j.
Proof. intros Nd Hi Hj E. unfold cv in E. rewrite !Nat.mod_small in E by auto. apply (proj1 (NoDup_nth q 0) Nd); auto. Qed.
Lemma cycle_edge_i q i : q <> [] -> cycle_edge q (cv q i) (cv q (S i)).
Proof. intro H. exists (i mod length q). split; [apply Nat.mod_upper_bound; destruct q; [congruence|discriminate]|]. left. rewrite cv_mod, cv_succ by exact H. auto. Qed.
Lemma cycle_edge_sym q a b : cycle_edge q a b -> cycle_edge q b a.
Proof. intros (i & Hi & H). exists i. split; [exact Hi|]. tauto. Qed.
Lemma cycle_nonempty n W q : cycle n W q -> q <> [].
Proof. intros (L & _) ->. cbn in L. lia. Qed.

(** different indices, different edges *)
Lemma cycle_pair_inj n W q i j : cycle n W q -> i < length q -> j < length q ->
  ((cv q i = cv q j /\ cv q (S i) = cv q (S j)) \/ (cv q i = cv q (S j) /\ cv q (S i) = cv q j)) -> i = j.
Proof.
  intros (L & Nd & _) Hi Hj [[E _]|[E1 E2]]; [eapply cv_inj; eauto|]. exfalso.
  assert (B : forall k, k mod length q < length q) by (intro; apply Nat.mod_upper_bound; lia).
  rewrite <- (cv_mod q (S j)) in E1. rewrite <- (cv_mod q (S i)) in E2. apply cv_inj in E1; auto. apply cv_inj in E2; auto.
  destruct (Nat.eq_dec (S j) (length q)) as [J|J].
  - rewrite J, Nat.mod_same in E1 by lia. subst i. rewrite Nat.mod_small in E2 by lia. lia.
  - rewrite Nat.mod_small in E1 by lia. subst i. destruct (Nat.eq_dec (S (S j)) (length q)) as [K|K].
    + rewrite K, Nat.mod_same in E2 by lia. lia.
    + rewrite Nat.mod_small in E2 by lia. lia.
Qed.

(** if a two-coloring changes at index i it changes at another index *)
Lemma cycle_even n W q (f : nat -> bool) i : cycle n W q -> i < length q -> f (cv q i) <> f (cv q (S i)) ->
  exists m, 0 < m < length q /\ f (cv q (i + m)) <> f (cv q (S (i + m))).
Proof.
  intros Cy Hi D. pose proof Cy as (L & _). assert (Ne : q <> []) by (eapply cycle_nonempty; eauto).
  assert (H : forall k, k <= length q - 1 -> (exists m, 0 < m <= k /\ f (cv q (i + m)) <> f (cv q (S (i + m)))) \/ f (cv q (S (i + k))) = f (cv q (S i))).
  { induction k as [|k IH]; intro Hk; [right; rewrite Nat.add_0_r; reflexivity|].
    destruct IH as [(m & Hm & E)|E]; [lia|left; exists m; split; [lia|exact E]|].
    destruct (Bool.bool_dec (f (cv q (i + S k))) (f (cv q (S (i + S k))))) as [Q|Q].
    - right. rewrite <- Q. replace (i + S k) with (S (i + k)) by lia. exact E.
    - left. exists (S k). split; [lia|exact Q]. }
  destruct (H (length q - 1) ltac:(lia)) as [(m & Hm & E)|E]; [exists m; split; [lia|exact E]|].
  exfalso. apply D. rewrite <- E. replace (S (i + (length q - 1))) with (i + length q) by lia. rewrite cv_add by exact Ne. reflexivity.
Qed.

(** ** a tree of parents *)
Lemma path_nth p x u l i d : path p x u l -> S i < length l -> p (nth i l d) = Some (nth (S i) l d).
Proof.
  intro P. revert i. induction P as [x|x y u l N H P IH]; intros i Hi; [cbn in Hi; lia|]. destruct i as [|i].
  - destruct (path_head _ _ _ _ P) as (t & ->). cbn. exact H.
  - cbn in Hi. cbn [nth]. apply IH. lia.
Qed.
Lemma climb_const (p : nat -> option nat) (f : nat -> bool) x v : anc p x v -> (forall z y, anc p x z -> p z = Some y -> anc p y v -> f z = f y) -> f x = f v.
Proof.
  intros [k A]. induction A as [x|k x y v H A IH]; intro Q; [reflexivity|]. rewrite (Q x y); [|apply anc_refl|exact H|exists k; exact A]. apply IH. intros z y' B. apply Q. eapply anc_step; eauto.
Qed.

Lemma path_two p x u y l : path p x u (x :: y :: l) -> p x = Some y /\ path p y u (y :: l).
Proof. intro P. inversion P as [|x0 y0 u0 l0 _ E P']; subst. destruct (path_head _ _ _ _ P') as (t & Q). injection Q as -> ->. auto. Qed.
Lemma path_one p x u : path p x u [x] -> x = u.
Proof. intro P. inversion P as [|x0 y0 u0 l0 _ E P']; subst; [reflexivity|]. inversion P'. Qed.
Lemma path_self p u l : path p u u l -> l = [u].
Proof. intro P. apply (path_fun _ _ _ _ _ P). constructor. Qed.

Lemma mod_shift L i k : i < L -> k < L -> (i + k) mod L = if i + k <? L then i + k else i + k - L.
Proof.
  intros Hi Hk. destruct (Nat.ltb_spec (i + k) L) as [X|X]; [apply Nat.mod_small; exact X|]. replace (i + k) with (i + k - L + 1 * L) at 1 by lia. rewrite Nat.mod_add by lia. apply Nat.mod_small. lia.
Qed.
Lemma mod_ne L i k : i < L -> 0 < k < L -> (i + k) mod L <> i.
Proof. intros Hi Hk. rewrite mod_shift by lia. destruct (Nat.ltb_spec (i + k) L); lia. Qed.
Lemma mod_inj L i k m : i < L -> k < L -> m < L -> (i + k) mod L = (i + m) mod L -> k = m.
Proof. intros Hi Hk Hm. rewrite !mod_shift by lia. destruct (Nat.ltb_spec (i + k) L), (Nat.ltb_spec (i + m) L); lia. Qed.

Lemma light_le_neg T A b : (light T A <= b -> light T (T - A) <= b)%N.
Proof. unfold light. lia. Qed.

Section Tree.
Context (n : nat) (W : wfun) (c T : N) (vw : nat -> N) (p : nat -> option nat) (start : nat) (sub : nat -> N).
Context (Sym : symm n W) (Hs : start < n) (Hroot : p start = None) (Hanc : forall x, x < n -> anc p x start)
        (Hpar : forall x y, p x = Some y -> x < n /\ y < n /\ x <> y /\ W x y <> 0%N)
        (Hedge : forall x y, x < n -> y < n -> W x y <> 0%N -> anc p x y \/ anc p y x)
        (Hloop : forall x, x < n -> W x x = 0%N)
        (Hsub : forall x, x < n -> exists L, NoDup L /\ (forall y, In y L <-> anc p y x) /\ sub x = sumN vw L)
        (HT : sumN vw (seq 0 n) = T) (c0 : (0 < c)%N) (Ca : cactus n W c).

Lemma anc_lt x y : y < n -> anc p x y -> x < n.
Proof. intros H A. apply anc_inv in A as [->|(z & E & _)]; [exact H|]. apply Hpar in E. tauto. Qed.
Lemma anc_lt' x y : x < n -> anc p x y -> y < n.
Proof. intros H [k A]. induction A; [exact H|]. apply IHA. apply Hpar in H0. tauto. Qed.
Lemma strict x y : p x = Some y -> ~ anc p y x.
Proof. intro E. apply (par_strict p start); auto. apply Hanc. apply Hpar in E. tauto. Qed.
Lemma asym x y : y < n -> anc p x y -> anc p y x -> x = y.
Proof. intro H. apply (anc_antisym p start); auto. Qed.
Lemma anc_dec x y : y < n -> anc p x y \/ ~ anc p x y.
Proof. intro H. destruct (Hsub y H) as (L & _ & HL & _). destruct (in_dec Nat.eq_dec x L) as [I|I]; [left; apply HL; exact I|right; intro A; apply I; apply HL; exact A]. Qed.
Lemma Wsym x y : x < n -> y < n -> W x y <> 0%N -> W y x <> 0%N.
Proof. intros A B. rewrite (Sym x y) by auto. auto. Qed.

Definition wsum (f : nat -> bool) : N := bsum n (fun y => if f y then vw y else 0%N).
Lemma wsum_list f L : NoDup L -> (forall y, In y L -> y < n) -> (forall y, y < n -> f y = true -> In y L) -> wsum f = sumN (fun y => if f y then vw y else 0%N) L.
Proof.
  intros Nd H1 H2. apply N.le_antisymm.
  - apply (sumN_support Nat.eq_dec); [apply seq_NoDup|]. intros y I N. apply in_seq in I. destruct (f y) eqn:E; [|reflexivity]. exfalso. apply N. apply H2; [lia|exact E].
  - apply sumN_incl; [exact Nd|]. intros y I. apply in_seq. specialize (H1 y I). lia.
Qed.
Lemma wsum_neg f : (wsum f + wsum (fun y => negb (f y)) = T)%N.
Proof. unfold wsum. rewrite <- bsum_add, <- HT. apply sumN_ext. intros y _. destruct (f y); cbn; lia. Qed.
Lemma wsum_sub f x : x < n -> (forall y, y < n -> (f y = true <-> anc p y x)) -> wsum f = sub x.
Proof.
  intros Hx H. destruct (Hsub x Hx) as (L & Nd & HL & ->). rewrite (wsum_list f L Nd).
  - apply sumN_ext. intros y I. apply HL in I. rewrite (proj2 (H y (anc_lt y x Hx I)) I). reflexivity.
  - intros y I. apply HL in I. apply (anc_lt y x Hx I).
  - intros y Hy E. apply HL. apply H; auto.
Qed.
Lemma light_neg f : light T (wsum (fun y => negb (f y))) = light T (wsum f).
Proof. pose proof (wsum_neg f). unfold light. lia. Qed.

(** one crossed tree edge *)
Lemma one_edge (f : nat -> bool) x px : p x = Some px -> (forall a b, a < n -> b < n -> W a b <> 0%N -> f a <> f b -> (a = x /\ b = px) \/ (a = px /\ b = x)) ->
  forall y, y < n -> (anc p y x -> f y = f x) /\ (~ anc p y x -> f y = f px).
Proof.
  intros E H. destruct (Hpar x px E) as (Hx & Hpx & Nx & _).
  assert (St : forall z z', p z = Some z' -> z <> x -> f z = f z').
  { intros z z' Ez Nz. destruct (Bool.bool_dec (f z) (f z')) as [Q|Q]; [exact Q|]. exfalso. destruct (Hpar z z' Ez) as (A & B & _ & D). destruct (H z z' A B D Q) as [[Z _]|[Z1 Z2]]; [contradiction|]. subst z z'. apply (strict x px E). apply anc_par. exact Ez. }
  intros y Hy. split; intro A.
  - apply (climb_const p); [exact A|]. intros z z' _ Ez Az. apply St; [exact Ez|]. intros ->. rewrite E in Ez. injection Ez as <-. apply (strict x px E Az).
  - assert (F1 : f y = f start). { apply (climb_const p); [apply Hanc; exact Hy|]. intros z z' Az Ez _. apply St; [exact Ez|]. intros ->. contradiction. }
    assert (F2 : f px = f start). { apply (climb_const p); [apply Hanc; exact Hpx|]. intros z z' Az Ez _. apply St; [exact Ez|]. intros ->. apply (strict x px E Az). }
    congruence.
Qed.
Lemma one_edge_weight (f : nat -> bool) x px : p x = Some px -> f x <> f px -> (forall a b, a < n -> b < n -> W a b <> 0%N -> f a <> f b -> (a = x /\ b = px) \/ (a = px /\ b = x)) ->
  light T (wsum f) = light T (sub x).
Proof.
  intros E D H. destruct (Hpar x px E) as (Hx & Hpx & _). pose proof (one_edge f x px E H) as Q. destruct (f x) eqn:Fx.
  - f_equal. apply wsum_sub; [exact Hx|]. intros y Hy. destruct (Q y Hy) as [Q1 Q2]. destruct (anc_dec y x Hx) as [A|A]; [rewrite (Q1 A); tauto|]. rewrite (Q2 A). split; [intro; congruence|tauto].
  - rewrite <- light_neg. f_equal. apply wsum_sub; [exact Hx|]. intros y Hy. destruct (Q y Hy) as [Q1 Q2]. destruct (anc_dec y x Hx) as [A|A]; [rewrite (Q1 A); cbn; tauto|]. rewrite (Q2 A). destruct (f px); [cbn; split; [intro Z; discriminate Z|tauto]|congruence].
Qed.

(** *** the cycle of a back edge *)
Definition back (x u : nat) : Prop := x < n /\ u < n /\ x <> u /\ W x u <> 0%N /\ anc p x u /\ p x <> Some u.
Section Fund.
Context (x u : nat) (l : list nat) (Bk : back x u) (P : path p x u (x :: l)).
Notation q := (x :: l).
Lemma fd_nodup : NoDup q.
Proof. destruct Bk as (_ & Hu & _). apply (path_nodup p start x u); auto. Qed.
Lemma fd_len : 3 <= length q.
Proof.
  destruct Bk as (_ & _ & N & _ & _ & Np). inversion P as [|x0 y u0 l0 _ Px P']; subst; [contradiction|]. destruct (path_head _ _ _ _ P') as (l1 & ->). inversion P' as [|y0 z u0 l0 Ny Py P2]; subst; [contradiction|]. destruct (path_head _ _ _ _ P2) as (l3 & ->). cbn. lia.
Qed.
Lemma fd_lt y : In y q -> y < n.
Proof. intro I. destruct (path_mid _ _ _ _ _ P I) as [A _]. apply (anc_lt' x y); auto. apply Bk. Qed.
Lemma cv_small i : i < length q -> cv q i = nth i q 0.
Proof. intro H. unfold cv. rewrite Nat.mod_small by exact H. reflexivity. Qed.
Lemma cv_in i : In (cv q i) q.
Proof. unfold cv. apply nth_In. apply Nat.mod_upper_bound. discriminate. Qed.
Lemma fd_last : cv q (length l) = u.
Proof. rewrite cv_small by (cbn; lia). pose proof (path_last _ _ _ _ 0 P) as La. rewrite <- La. clear. revert x. induction l as [|y l' IH]; intro x; [reflexivity|]. cbn [length]. change (nth (S (length l')) (x :: y :: l') 0) with (nth (length l') (y :: l') 0). rewrite IH. reflexivity. Qed.
Lemma fd_up i : i < length l -> p (cv q i) = Some (cv q (S i)).
Proof. intro H. rewrite !cv_small by (cbn; lia). apply (path_nth p x u); [exact P|cbn; lia]. Qed.
Lemma fd_wrap : cv q (S (length l)) = x.
Proof. unfold cv. cbn [length]. rewrite Nat.mod_same by discriminate. reflexivity. Qed.
Lemma fd_cycle : cycle n W q.
Proof.
  split; [apply fd_len|]. split; [apply fd_nodup|]. intro i. split; [apply fd_lt; apply cv_in|]. rewrite <- (cv_mod q i), <- (cv_succ q i) by discriminate. set (j := i mod length q).
  assert (Hj : j < length q) by (apply Nat.mod_upper_bound; discriminate). cbn [length] in Hj. destruct (Nat.eq_dec j (length l)) as [->|N].
  - rewrite fd_last, fd_wrap. destruct Bk as (A & B & _ & D & _). apply Wsym; auto.
  - pose proof (fd_up j ltac:(lia)) as E. apply Hpar in E. tauto.
Qed.
Lemma fd_on z y : In z q -> z <> u -> p z = Some y -> cycle_edge q z y.
Proof.
  intros I N E. apply (In_nth _ _ 0) in I as (i & Hi & Q). cbn [length] in Hi. assert (i <> length l). { intros ->. apply N. rewrite <- Q, <- fd_last. rewrite cv_small by (cbn; lia). reflexivity. }
  pose proof (fd_up i ltac:(lia)) as E'. rewrite (cv_small i) in E' by (cbn; lia). rewrite Q, E in E'. injection E' as ->. rewrite <- Q, <- (cv_small i) by (cbn; lia). apply cycle_edge_i. discriminate.
Qed.
Lemma fd_off z y : ~ In z q \/ z = u -> p z = Some y -> ~ cycle_edge q z y.
Proof.
  intros Z E (i & Hi & H). cbn [length] in Hi. assert (A : z = u). { destruct Z as [Z|Z]; [|exact Z]. exfalso. apply Z. destruct H as [[-> _]|[_ ->]]; apply cv_in. }
  subst z. assert (X : ~ anc p y u) by (apply strict; exact E). apply X. assert (Iy : In y q) by (destruct H as [[_ ->]|[-> _]]; apply cv_in). apply (path_mid _ _ _ _ _ P Iy).
Qed.

Context (f : nat -> bool) (Hf : forall a b, a < n -> b < n -> W a b <> 0%N -> f a <> f b -> cycle_edge q a b).
Lemma fd_stay z y : ~ In z q \/ z = u -> p z = Some y -> f z = f y.
Proof.
  intros Z E. destruct (Bool.bool_dec (f z) (f y)) as [Q|Q]; [exact Q|]. exfalso. destruct (Hpar z y E) as (A & B & _ & D). apply (fd_off z y Z E). apply Hf; auto.
Qed.
(** the vertices hanging below v but not below the cycle vertex before v *)
Lemma fd_hang v v' z : In v' q -> v' <> u -> p v' = Some v -> z < n -> anc p z v -> ~ anc p z v' -> f z = f v.
Proof.
  intros I N E Hz A NA. apply (climb_const p); [exact A|]. intros w y Aw Ew Ay. apply fd_stay; [|exact Ew]. left. intro Iw.
  destruct (path_mid _ _ _ _ _ P I) as [X1 _]. destruct (path_mid _ _ _ _ _ P Iw) as [X2 _]. destruct (anc_chain p x v' w X1 X2) as [Y|Y].
  - (* w above v' *) apply anc_inv in Y as [<-|(v2 & E2 & Y)]; [contradiction|]. rewrite E in E2. injection E2 as <-. destruct (Hpar w y Ew) as (Lw & Ly & _). destruct (Hpar v' v E) as (_ & Lv & _).
    (* anc v w, w -> y, anc y v *) apply (strict w y Ew). eapply anc_trans; [exact Ay|exact Y].
  - apply NA. eapply anc_trans; eauto.
Qed.
Lemma fd_low z : z < n -> anc p z x -> f z = f x.
Proof.
  intros Hz A. apply (climb_const p); [exact A|]. intros w y Aw Ew Ay. apply fd_stay; [|exact Ew]. left. intro Iw. destruct (path_mid _ _ _ _ _ P Iw) as [X _]. apply (strict w y Ew). eapply anc_trans; [exact Ay|exact X].
Qed.
Lemma fd_top z v' : In v' q -> v' <> u -> p v' = Some u -> z < n -> ~ anc p z v' -> f z = f u.
Proof.
  intros I N E Hz NA. assert (Q : forall z, z < n -> ~ anc p z v' -> f z = f start).
  { intros z0 Hz0 NA0. apply (climb_const p); [apply Hanc; exact Hz0|]. intros w y Aw Ew _. apply fd_stay; [|exact Ew]. destruct (Nat.eq_dec w u) as [Q|Q]; [right; exact Q|]. left. intro Iw.
    destruct (path_mid _ _ _ _ _ P I) as [X1 _]. destruct (path_mid _ _ _ _ _ P Iw) as [X2 X3]. destruct (anc_chain p x v' w X1 X2) as [Y|Y].
    - apply anc_inv in Y as [<-|(v2 & E2 & Y)]; [contradiction|]. rewrite E in E2. injection E2 as <-. apply Q. apply asym; [apply Bk|exact X3|exact Y].
    - apply NA0. eapply anc_trans; eauto. }
  rewrite (Q z Hz NA). symmetry. apply Q; [apply Bk|]. apply strict. exact E.
Qed.

Definition fw (f : nat -> bool) (e : nat * N) : N := if f (fst e) then snd e else 0%N.
Definition Asum (v : nat) (a : N) : Prop := forall L, NoDup L -> (forall y, In y L <-> anc p y v) -> sumN (fun y => if f y then vw y else 0%N) L = a.
Lemma fd_abel : forall l' v a, path p v u (v :: l') -> incl (v :: l') q -> v <> u -> Asum v a -> wsum f = (a + sumN (fw f) (cwts T sub v l'))%N.
Proof.
  induction l' as [|y l' IH]; intros v a Pv Inc N Ha.
  - exfalso. apply N. apply (path_one p). exact Pv.
  - destruct (path_two _ _ _ _ _ Pv) as [Ev Py].
    destruct (Hpar v y Ev) as (Lv & Ly & _). assert (Iv : In v q) by (apply Inc; left; reflexivity).
    destruct (Hsub v Lv) as (L & Nd & HL & Sv). pose proof (Ha L Nd HL) as Ea.
    destruct (Nat.eq_dec y u) as [Yu|Yu].
    + assert (Q : y :: l' = [y]) by (rewrite Yu in Py |- *; apply (path_self p); exact Py). injection Q as ->. cbn [cwts]. change (sumN (fw f) [(y, (T - sub v)%N)]) with (fw f (y, (T - sub v)%N) + 0)%N.
      unfold fw. cbn [fst snd].
      assert (E1 : wsum f = (sumN (fun z => if f z then vw z else 0) L + (if f y then wsum (fun z => negb (existsb (Nat.eqb z) L)) else 0))%N).
      { assert (Hl : sumN (fun z => if f z then vw z else 0%N) L = bsum n (fun z => if existsb (Nat.eqb z) L then (if f z then vw z else 0%N) else 0%N)).
        { apply N.le_antisymm.
          - etransitivity; [|apply (sumN_incl _ L (seq 0 n)); [exact Nd|]].
            + apply sumN_le. intros z I. assert (Z : existsb (Nat.eqb z) L = true) by (apply existsb_exists; exists z; split; [exact I|apply Nat.eqb_refl]). rewrite Z. lia.
            + intros z I. apply in_seq. apply HL in I. pose proof (anc_lt z v Lv I). lia.
          - etransitivity; [apply (sumN_support Nat.eq_dec _ L); [apply seq_NoDup|]|apply sumN_le; intros z _; destruct (existsb (Nat.eqb z) L); lia].
            intros z _ NI. destruct (existsb (Nat.eqb z) L) eqn:Z; [|reflexivity]. exfalso. apply existsb_exists in Z as (z' & I & Z). apply Nat.eqb_eq in Z. subst z'. contradiction. }
        rewrite Hl. unfold wsum. destruct (f y) eqn:Fy.
        - rewrite <- bsum_add. apply bsum_ext. intros z Hz. destruct (existsb (Nat.eqb z) L) eqn:Z; cbn [negb]; [lia|].
          assert (NA : ~ anc p z v). { intro A. apply HL in A. rewrite (proj2 (existsb_exists _ _)) in Z; [discriminate Z|]. exists z. split; [exact A|apply Nat.eqb_refl]. }
          rewrite (fd_top z v Iv N) by (subst y; auto). rewrite <- Yu, Fy. lia.
        - rewrite N.add_0_r. apply bsum_ext. intros z Hz. destruct (existsb (Nat.eqb z) L) eqn:Z; [reflexivity|].
          assert (NA : ~ anc p z v). { intro A. apply HL in A. rewrite (proj2 (existsb_exists _ _)) in Z; [discriminate Z|]. exists z. split; [exact A|apply Nat.eqb_refl]. }
          rewrite (fd_top z v Iv N) by (subst y; auto). rewrite <- Yu, Fy. reflexivity. }
      rewrite E1, Ea, N.add_0_r. f_equal. destruct (f y); [|reflexivity].
      assert (E2 : wsum (fun z => existsb (Nat.eqb z) L) = sub v).
      { apply wsum_sub; [exact Lv|]. intros z Hz. rewrite <- HL. split; intro Q; [apply existsb_exists in Q as (z' & I & Z); apply Nat.eqb_eq in Z; subst z'; exact I|]. apply existsb_exists. exists z. split; [exact Q|apply Nat.eqb_refl]. }
      pose proof (wsum_neg (fun z => existsb (Nat.eqb z) L)). lia.
    + destruct l' as [|y' l']; [exfalso; apply Yu; apply (path_one p); exact Py|].
      change (cwts T sub v (y :: y' :: l')) with ((y, sub y - sub v)%N :: cwts T sub y (y' :: l')).
      change (sumN (fw f) ((y, sub y - sub v)%N :: cwts T sub y (y' :: l'))) with (fw f (y, sub y - sub v) + sumN (fw f) (cwts T sub y (y' :: l')))%N.
      rewrite N.add_assoc. apply IH; [exact Py|intros z I; apply Inc; right; exact I|exact Yu|].
      destruct (Hsub y Ly) as (Ly' & NdY & HLy & Sy).
      intros L2 Nd2 HL2. unfold fw. cbn [fst snd].
      assert (In2 : incl L L2) by (intros z I; apply HL2; apply HL in I; eapply anc_trans; [exact I|apply anc_par; exact Ev]).
      assert (Sp : forall g : nat -> BinNums.N, sumN g L2 = (sumN g L + sumN g (filter (fun z => negb (existsb (Nat.eqb z) L)) L2))%N).
      { intro g. rewrite (sumN_filter_split g (fun z => existsb (Nat.eqb z) L) L2). f_equal. apply sumN_perm. apply NoDup_Permutation; [apply NoDup_filter; exact Nd2|exact Nd|].
        intro z. rewrite filter_In. split; [intros [_ Q]; apply existsb_exists in Q as (z' & I & Z); apply Nat.eqb_eq in Z; subst z'; exact I|]. intro I. split; [apply In2; exact I|]. apply existsb_exists. exists z. split; [exact I|apply Nat.eqb_refl]. }
      rewrite Sp, Ea. f_equal.
      assert (Sy2 : sub y = sumN vw L2). { rewrite Sy. apply sumN_perm. apply NoDup_Permutation; auto. intro z. rewrite HLy, HL2. tauto. }
      transitivity (sumN (fun z => if f y then vw z else 0%N) (filter (fun z => negb (existsb (Nat.eqb z) L)) L2)).
      * apply sumN_ext. intros z I. apply filter_In in I as [I Z]. apply HL2 in I. assert (NA : ~ anc p z v). { intro A. apply HL in A. rewrite (proj2 (existsb_exists _ _)) in Z; [discriminate Z|]. exists z. split; [exact A|apply Nat.eqb_refl]. }
        rewrite (fd_hang y v z Iv N Ev (anc_lt z y Ly I) I NA). reflexivity.
      * destruct (f y); [|apply sumN_zero; reflexivity]. rewrite Sy2, Sv, (Sp vw). rewrite N.add_comm, N.add_sub. reflexivity.
Qed.
Lemma fd_weight : wsum f = sumN (fw f) (cycl T sub x l).
Proof.
  unfold cycl. change (sumN (fw f) ((x, sub x) :: cwts T sub x l)) with (fw f (x, sub x) + sumN (fw f) (cwts T sub x l))%N. apply fd_abel; [exact P|apply incl_refl|apply Bk|].
  intros L Nd HL. unfold fw. cbn [fst snd]. assert (Lx : x < n) by apply Bk. destruct (Hsub x Lx) as (L' & Nd' & HL' & ->).
  transitivity (sumN (fun y => if f x then vw y else 0%N) L).
  - apply sumN_ext. intros z I. apply HL in I. rewrite (fd_low z (anc_lt z x Lx I) I). reflexivity.
  - destruct (f x); [|apply sumN_zero; reflexivity]. apply sumN_perm. apply NoDup_Permutation; auto. intro z. rewrite HL, HL'. tauto.
Qed.
End Fund.

(** *** crossing pairs of light cuts *)
Lemma W_half e S : crossing n W S e -> (c <= 2 * W (fst e) (snd e))%N.
Proof. intros (A & B & _ & _ & D). destruct (ca_weights _ _ _ Ca _ _ A B D) as [[-> _]|[<- _]]; lia. Qed.
Lemma cr_one S e1 e : (cutw n W S <= c)%N -> crossing n W S e1 -> W (fst e1) (snd e1) = c -> crossing n W S e -> e = e1.
Proof.
  intros H C1 E C2. assert (Dec : {e = e1} + {e <> e1}) by (decide equality; apply Nat.eq_dec). destruct Dec as [Q|Q]; [exact Q|]. exfalso.
  assert (L : (sumN (fun e => W (fst e) (snd e)) [e; e1] <= cutw n W S)%N). { apply cutw_ge; [constructor; [intros [X|[]]; congruence|constructor; [intros []|constructor]]|]. intros e' [<-|[<-|[]]]; auto. }
  unfold sumN in L. cbn in L. rewrite E in L. pose proof (W_half _ _ C2). lia.
Qed.
Lemma cr_two S e1 e2 e : (cutw n W S <= c)%N -> crossing n W S e1 -> crossing n W S e2 -> e1 <> e2 -> crossing n W S e -> e = e1 \/ e = e2.
Proof.
  intros H C1 C2 Ne C3. assert (Dec : forall a b : nat * nat, {a = b} + {a <> b}) by (decide equality; apply Nat.eq_dec). destruct (Dec e e1) as [Q|Q]; [auto|]. destruct (Dec e e2) as [Q'|Q']; [auto|]. exfalso.
  assert (L : (sumN (fun e => W (fst e) (snd e)) [e; e1; e2] <= cutw n W S)%N).
  { apply cutw_ge; [constructor; [intros [X|[X|[]]]; congruence|constructor; [intros [X|[]]; congruence|constructor; [intros []|constructor]]]|]. intros e' [<-|[<-|[<-|[]]]]; auto. }
  unfold sumN in L. cbn in L. pose proof (W_half _ _ C1). pose proof (W_half _ _ C2). pose proof (W_half _ _ C3). lia.
Qed.
Definition orient (f : nat -> bool) (a b : nat) : nat * nat := if f a then (a, b) else (b, a).
Lemma orient_cr f a b : a < n -> b < n -> W a b <> 0%N -> f a <> f b -> crossing n W f (orient f a b).
Proof. intros A B D E. pose proof (Wsym a b A B D). unfold orient, crossing. destruct (f a) eqn:Fa, (f b) eqn:Fb; try congruence; cbn; auto. Qed.
Lemma orient_eq f a b a' b' : orient f a b = orient f a' b' -> (a = a' /\ b = b') \/ (a = b' /\ b = a').
Proof. unfold orient. destruct (f a), (f a'); intro E; injection E as -> ->; auto. Qed.

Lemma bsum_app a b (f : nat -> N) : bsum (a + b) f = (bsum a f + bsum b (fun k => f (a + k)%nat))%N.
Proof. induction b as [|b IH]; [rewrite Nat.add_0_r; cbn; lia|]. rewrite Nat.add_succ_r, !bsum_S, IH. lia. Qed.
(** *** a function with two changes around a cycle *)
Lemma two_change len (g : nat -> bool) (w : nat -> N) i m : (forall k, g (k + len) = g k) -> (forall k, w (k + len) = w k) -> 0 < m < len ->
  (forall k, 0 < k < len -> k <> m -> g (i + k) = g (S (i + k))) -> g (i + m) <> g (S (i + m)) ->
  bsum len (fun k => if g k then w k else 0%N) = (if g (S i) then bsum m (fun k => w (S i + k)%nat) else bsum len w - bsum m (fun k => w (S i + k)%nat))%N.
Proof.
  intros Pg Pw Hm St Ch. rewrite <- (bsum_period len _ (S i)) by (intro k; rewrite Pg, Pw; reflexivity). rewrite <- (bsum_period len w (S i)) by exact Pw.
  assert (G1 : forall k, k < m -> g (S i + k) = g (S i)).
  { induction k as [|k IH]; intro Hk; [rewrite Nat.add_0_r; reflexivity|]. rewrite <- IH by lia. replace (S i + S k) with (S (i + S k)) by lia. rewrite <- St by lia. f_equal. lia. }
  assert (G2 : forall k, k < len - m -> g (S i + (m + k)) = g (S (i + m))).
  { induction k as [|k IH]; intro Hk; [f_equal; lia|]. rewrite <- IH by lia. replace (S i + (m + S k)) with (S (i + S (m + k))) by lia. rewrite <- St by lia. f_equal. lia. }
  assert (Gm : g (S (i + m)) = negb (g (S i))).
  { assert (E : g (i + m) = g (S i)) by (rewrite <- (G1 (m - 1)) by lia; f_equal; lia). rewrite E in Ch. destruct (g (S i)), (g (S (i + m))); cbn; congruence. }
  replace len with (m + (len - m)) by lia. rewrite !bsum_app.
  rewrite (bsum_ext m _ (fun k => if g (S i) then w (S i + k) else 0%N)) by (intros k Hk; rewrite (G1 k Hk); reflexivity).
  rewrite (bsum_ext (len - m) _ (fun k => if negb (g (S i)) then w (S i + (m + k)) else 0%N)) by (intros k Hk; rewrite (G2 k Hk), Gm; reflexivity).
  destruct (g (S i)); cbn [negb].
  - rewrite (bsum_zero (len - m) (fun _ => 0%N)) by reflexivity. lia.
  - rewrite (bsum_zero m (fun _ => 0%N)) by reflexivity. rewrite N.add_comm, (N.add_comm (bsum m _)), N.add_sub. lia.
Qed.

Lemma cverb_cv T' sub' x l i : cverb (cycl T' sub' x l) i = cv (x :: l) i.
Proof. unfold cverb, cv. rewrite cycl_len. cbn [length]. rewrite <- (cycl_fst T' sub' x l), <- (map_nth fst). reflexivity. Qed.
Lemma fw_index f x l : sumN (fw f) (cycl T sub x l) = bsum (S (length l)) (fun i => if f (cv (x :: l) i) then cwgt (cycl T sub x l) i else 0%N).
Proof.
  rewrite <- (bsum_list (fw f) (cycl T sub x l) (0, 0%N)). rewrite cycl_len. apply bsum_ext. intros i Hi. unfold fw.
  rewrite <- (cverb_cv T sub x l i). unfold cverb, cwgt. rewrite cycl_len, Nat.mod_small by exact Hi. reflexivity.
Qed.
Lemma cyc_total x u l : back x u -> path p x u (x :: l) -> bsum (S (length l)) (cwgt (cycl T sub x l)) = T.
Proof.
  intros Bk P. pose proof (fd_weight x u l Bk P (fun _ => true) ltac:(intros; congruence)) as E. rewrite fw_index in E. cbn [andb] in E. etransitivity; [symmetry; exact E|]. exact HT.
Qed.

(** *** no minimum cut is more balanced *)
Lemma climb_find (f : nat -> bool) x v : anc p x v -> f x <> f v -> exists z y, p z = Some y /\ f z <> f y.
Proof.
  intros [k A]. induction A as [x|k x y v H A IH]; intro Q; [congruence|]. destruct (Bool.bool_dec (f x) (f y)) as [E|E]; [apply IH; congruence|]. exists x, y. auto.
Qed.
(** an edge leaving the subtree of z besides the one to the parent is a back edge over z *)
Lemma leaving z y a b : p z = Some y -> a < n -> b < n -> W a b <> 0%N -> anc p a z -> ~ anc p b z -> (a = z /\ b = y) \/ (back a b /\ anc p z b /\ z <> b).
Proof.
  intros E Ha Hb D A B. assert (X : anc p a b). { destruct (Hedge a b Ha Hb D) as [X|X]; [exact X|]. exfalso. apply B. eapply anc_trans; eauto. }
  destruct (anc_chain p a z b A X) as [Y|Y]; [|contradiction]. assert (Nz : z <> b) by (intros ->; apply B; apply anc_refl).
  assert (Dec : p a = Some b \/ p a <> Some b) by (destruct (p a) as [w|]; [destruct (Nat.eq_dec w b); [left; congruence|right; congruence]|right; discriminate]). destruct Dec as [Q|Q].
  - left. apply anc_inv in A as [->|(w & E2 & A)]; [rewrite E in Q; injection Q as ->; auto|]. rewrite Q in E2. injection E2 as <-. contradiction.
  - right. repeat split; auto. intros ->. contradiction.
Qed.
Theorem complete_cut (bw : N) (f : nat -> bool) :
  (forall x px, p x = Some px -> W px x = c -> (light T (sub x) <= bw)%N) ->
  (forall x u l, back x u -> path p x u (x :: l) -> forall i m, i <= S (length l) -> m <= S (length l) -> (light T (arc (cycl T sub x l) i m) <= bw)%N) ->
  proper n f -> cutw n W f = c -> (light T (wsum f) <= bw)%N.
Proof.
  intros Cov1 Cov2 [(a & Ha & Fa) (b & Hb & Fb)] Ec. assert (Ele : (cutw n W f <= c)%N) by (rewrite Ec; apply N.le_refl).
  assert (Z : exists z y, p z = Some y /\ f z <> f y).
  { destruct (f start) eqn:Fs; [apply (climb_find f b start)|apply (climb_find f a start)]; try (apply Hanc; assumption); congruence. }
  destruct Z as (z & y & Ez & Fzy). destruct (Hpar z y Ez) as (Hz & Hy & Nzy & Wzy).
  assert (Cr : forall a b, a < n -> b < n -> W a b <> 0%N -> f a <> f b -> crossing n W f (orient f a b)) by (intros; apply orient_cr; auto).
  destruct (ca_weights _ _ _ Ca z y Hz Hy Wzy) as [[Wc _]|[Wh (q0 & Cy0 & E0)]].
  - assert (Wc' : W y z = c) by (rewrite (Sym y z) by auto; exact Wc).
    rewrite (one_edge_weight f z y Ez Fzy); [apply (Cov1 z y Ez Wc')|]. intros a' b' A B D F. pose proof (Cr a' b' A B D F) as C2. pose proof (Cr z y Hz Hy Wzy Fzy) as C1.
    assert (Q : orient f a' b' = orient f z y). { apply (cr_one f); auto. unfold orient. destruct (f z); cbn; auto. }
    apply orient_eq in Q. tauto.
  - destruct (Hsub z Hz) as (L & Nd & HL & _). set (g := fun v => existsb (Nat.eqb v) L).
    assert (Hg : forall v, g v = true <-> anc p v z). { intro v. unfold g. rewrite <- HL. split; intro Q; [apply existsb_exists in Q as (z' & I & Z); apply Nat.eqb_eq in Z; subst z'; exact I|]. apply existsb_exists. exists v. split; [exact Q|apply Nat.eqb_refl]. }
    assert (Gz : g z = true) by (apply Hg; apply anc_refl). assert (Gy : g y = false) by (destruct (g y) eqn:Q; [apply Hg in Q; destruct (strict z y Ez Q)|reflexivity]).
    destruct E0 as (i0 & Hi0 & E0). assert (Ch0 : g (cv q0 i0) <> g (cv q0 (S i0))) by (destruct E0 as [[<- <-]|[<- <-]]; congruence).
    destruct (cycle_even n W q0 g i0 Cy0 Hi0 Ch0) as (m0 & Hm0 & Ch1). pose proof Cy0 as (L0 & _ & Cy0'). pose proof (cycle_nonempty _ _ _ Cy0) as Ne0.
    destruct (Cy0' (i0 + m0)) as [A1 A2]. destruct (Cy0' (S (i0 + m0))) as [A3 _].
    assert (Back : exists a b, back a b /\ anc p a z /\ anc p z b /\ z <> b).
    { assert (Pair : forall a b, a < n -> b < n -> W a b <> 0%N -> g a = true -> g b = false -> ~ (a = z /\ b = y) -> exists a b, back a b /\ anc p a z /\ anc p z b /\ z <> b).
      { intros a' b' X1 X2 X3 X4 X5 X6. assert (X7 : ~ anc p b' z) by (intro Q; apply Hg in Q; congruence). apply Hg in X4. destruct (leaving z y a' b' Ez X1 X2 X3 X4 X7) as [Q|(Q1 & Q2 & Q3)]; [contradiction|]. exists a', b'. auto. }
      assert (Dif : forall P : Prop, (cv q0 (i0 + m0) = z /\ cv q0 (S (i0 + m0)) = y) \/ (cv q0 (i0 + m0) = y /\ cv q0 (S (i0 + m0)) = z) -> P).
      { intros P0 Q. exfalso. assert (Q' : i0 = (i0 + m0) mod length q0).
        { apply (cycle_pair_inj n W q0); [exact Cy0|exact Hi0|apply Nat.mod_upper_bound; destruct q0; [congruence|discriminate]|]. rewrite cv_mod, cv_succ by exact Ne0. destruct Q as [[-> ->]|[-> ->]], E0 as [[<- <-]|[<- <-]]; auto. }
        symmetry in Q'. exact (mod_ne (length q0) i0 m0 Hi0 Hm0 Q'). }
      destruct (g (cv q0 (i0 + m0))) eqn:G1, (g (cv q0 (S (i0 + m0)))) eqn:G2; try congruence.
      - apply (Pair _ _ A1 A3 A2 G1 G2). intro Q. apply (Dif False). left. exact Q.
      - apply (Pair _ _ A3 A1 (Wsym _ _ A1 A3 A2) G2 G1). intro Q. apply (Dif False). right. tauto. }
    destruct Back as (x & u & Bk & Axz & Azu & Nzu). destruct (anc_path p x u) as (q & P); [apply Bk|]. destruct (path_head _ _ _ _ P) as (l & ->).
    assert (Iz : In z (x :: l)) by (destruct Bk as (_ & Hu & _); apply (path_between p start x u); auto).
    pose proof (fd_cycle x u l Bk P) as Cy. pose proof (fd_on x u l P z y Iz Nzu Ez) as (i & Hi & Ei).
    assert (Ne : x :: l <> []) by discriminate. pose proof Cy as (Len & Nq & Cy').
    assert (Ch : f (cv (x :: l) i) <> f (cv (x :: l) (S i))) by (destruct Ei as [[<- <-]|[<- <-]]; congruence).
    destruct (cycle_even n W (x :: l) f i Cy Hi Ch) as (m & Hm & Chm).
    destruct (Cy' i) as [B1 B2]. destruct (Cy' (S i)) as [B3 _]. destruct (Cy' (i + m)) as [B4 B5]. destruct (Cy' (S (i + m))) as [B6 _].
    set (e1 := orient f (cv (x :: l) i) (cv (x :: l) (S i))). set (e2 := orient f (cv (x :: l) (i + m)) (cv (x :: l) (S (i + m)))).
    assert (Idx : forall j k, j < length (x :: l) -> k < length (x :: l) -> orient f (cv (x :: l) j) (cv (x :: l) (S j)) = orient f (cv (x :: l) k) (cv (x :: l) (S k)) -> j = k).
    { intros j k Hj Hk Q. apply (cycle_pair_inj n W (x :: l) j k Cy Hj Hk). apply orient_eq in Q. exact Q. }
    assert (Md : forall k, 0 < k < length (x :: l) -> (i + k) mod length (x :: l) <> i).
    { intros k Hk. apply mod_ne; assumption. }
    assert (N12 : e1 <> e2).
    { unfold e1, e2. intro Q. apply (Md m Hm). symmetry. apply Idx; [exact Hi|apply Nat.mod_upper_bound; discriminate|]. rewrite cv_mod, cv_succ by exact Ne. exact Q. }
    assert (C1 : crossing n W f e1) by (apply Cr; auto). assert (C2 : crossing n W f e2) by (apply Cr; auto).
    assert (All : forall a b, a < n -> b < n -> W a b <> 0%N -> f a <> f b -> orient f a b = e1 \/ orient f a b = e2) by (intros a' b' X1 X2 X3 X4; exact (cr_two f e1 e2 _ Ele C1 C2 N12 (Cr a' b' X1 X2 X3 X4))).
    assert (Hf : forall a b, a < n -> b < n -> W a b <> 0%N -> f a <> f b -> cycle_edge (x :: l) a b).
    { intros a' b' X1 X2 X3 X4. destruct (All a' b' X1 X2 X3 X4) as [Q|Q]; apply orient_eq in Q as [[-> ->]|[-> ->]]; try (apply cycle_edge_i; exact Ne); apply cycle_edge_sym; apply cycle_edge_i; exact Ne. }
    rewrite (fd_weight x u l Bk P f Hf), fw_index.
    rewrite (two_change (S (length l)) (fun k => f (cv (x :: l) k)) (cwgt (cycl T sub x l)) i m).
    + rewrite (cyc_total x u l Bk P). change (bsum m (fun k => cwgt (cycl T sub x l) (S i + k))) with (arc (cycl T sub x l) (S i) m).
      cbn [length] in Hi, Hm. pose proof (Cov2 x u l Bk P (S i) m Hi (Nat.lt_le_incl _ _ (proj2 Hm))) as Q. destruct (f (cv (x :: l) (S i))); [exact Q|].
      apply light_le_neg. exact Q.
    + intro k. f_equal. apply (cv_add (x :: l)). exact Ne.
    + intro k. rewrite <- (cycl_len T sub x l). apply cwgt_period. discriminate.
    + exact Hm.
    + intros k Hk Nk. destruct (Bool.bool_dec (f (cv (x :: l) (i + k))) (f (cv (x :: l) (S (i + k))))) as [Q|Q]; [exact Q|]. exfalso.
      destruct (Cy' (i + k)) as [D1 D2]. destruct (Cy' (S (i + k))) as [D3 _]. change (S (length l)) with (length (x :: l)) in Hk. destruct (All _ _ D1 D3 D2 Q) as [Q'|Q'].
      * apply (Md k Hk). apply Idx; [apply Nat.mod_upper_bound; discriminate|exact Hi|]. rewrite cv_mod, cv_succ by exact Ne. exact Q'.
      * assert (Q2 : (i + k) mod length (x :: l) = (i + m) mod length (x :: l)). { apply Idx; try (apply Nat.mod_upper_bound; discriminate). rewrite !cv_mod, !cv_succ by exact Ne. exact Q'. }
        apply Nk. exact (mod_inj _ i k m Hi (proj2 Hk) (proj2 Hm) Q2).
    + exact Chm.
Qed.

(** *** the cut of a tree edge *)
Definition cut_by (f : nat -> bool) (n1 r1 n2 r2 : nat) : Prop :=
  n1 < n /\ n2 < n /\ r1 < n /\ r2 < n /\ f n1 = true /\ f n2 = true /\ f r1 = false /\ f r2 = false /\
  forall a b, crossing n W f (a, b) -> (a = n1 /\ b = r1) \/ (a = n2 /\ b = r2).
Lemma tree_cut t u : p t = Some u -> W u t = c -> exists f, cut_by f u t u t /\ cutw n W f = c /\ light T (wsum f) = light T (sub t).
Proof.
  intros E Wc. destruct (Hpar t u E) as (Ht & Hu & Ntu & Wtu). destruct (Hsub t Ht) as (L & Nd & HL & _). set (f := fun v => negb (existsb (Nat.eqb v) L)).
  assert (Hg : forall v, f v = false <-> anc p v t). { intro v. unfold f. rewrite negb_false_iff, <- HL. split; intro Q; [apply existsb_exists in Q as (z' & I & Z); apply Nat.eqb_eq in Z; subst z'; exact I|]. apply existsb_exists. exists v. split; [exact Q|apply Nat.eqb_refl]. }
  assert (Hg' : forall v, f v = true <-> ~ anc p v t). { intro v. rewrite <- Hg. destruct (f v); split; congruence. }
  assert (All : forall a b, crossing n W f (a, b) -> a = u /\ b = t).
  { intros a b (A & B & D1 & D2 & D3). cbn [fst snd] in *. apply Hg in D2. apply Hg' in D1. destruct (leaving t u b a E B A (Wsym _ _ A B D3) D2 D1) as [[-> ->]|(Bk & Ata & Nta)]; [auto|]. exfalso.
    destruct (anc_path p b a) as (q & P); [apply Bk|]. destruct (path_head _ _ _ _ P) as (l & ->).
    assert (It : In t (b :: l)) by (apply (path_between p start b a); auto). pose proof (fd_on b a l P t u It Nta E) as Ce. pose proof (fd_cycle b a l Bk P) as Cy.
    assert (Wu : W u t <> 0%N) by (rewrite (Sym u t) by auto; exact Wtu).
    destruct (ca_weights _ _ _ Ca u t Hu Ht Wu) as [[_ Q]|[Q _]]; [apply (Q _ Cy); apply cycle_edge_sym; exact Ce|]. rewrite Wc in Q. clear - Q c0. lia. }
  assert (Fu : f u = true) by (apply Hg'; apply strict; exact E). assert (Ft : f t = false) by (apply Hg; apply anc_refl).
  assert (C1 : crossing n W f (u, t)) by (repeat split; auto; cbn; rewrite (Sym u t) by auto; exact Wtu).
  exists f. split; [|split].
  - repeat split; auto.
  - apply N.le_antisymm.
    + etransitivity; [apply (cutw_le n W f [(u, t)]); intros [a b] Q; apply All in Q as [-> ->]; left; reflexivity|]. unfold sumN. cbn. rewrite Wc. clear. lia.
    + etransitivity; [|apply (cutw_ge n W f [(u, t)]); [constructor; [intros []|constructor]|intros e [<-|[]]; exact C1]]. unfold sumN. cbn. rewrite Wc. clear. lia.
  - rewrite <- light_neg. f_equal. apply wsum_sub; [exact Ht|]. intros y Hy. rewrite negb_true_iff. apply Hg.
Qed.

(** *** the cut of an arc *)
Lemma choice (P : nat -> nat -> Prop) k : (forall z, z < k -> exists y, P z y) -> exists g, forall z, z < k -> P z (g z).
Proof.
  induction k as [|k IH]; intro H; [exists (fun _ => 0); intros z Hz; inversion Hz|]. destruct IH as (g & Hg); [intros z Hz; apply H; lia|]. destruct (H k ltac:(lia)) as (y & Hy).
  exists (fun z => if z =? k then y else g z). intros z Hz. destruct (Nat.eqb_spec z k) as [->|N]; [exact Hy|]. apply Hg. lia.
Qed.
Section Arc.
Context (x u : nat) (l : list nat) (Bk : back x u) (P : path p x u (x :: l)).
Notation q := (x :: l).
Notation len := (length l).
(** k is the number of the cycle vertex below which z hangs *)
Definition hangs (z k : nat) : Prop := k <= len /\ (forall j, j < k -> ~ anc p z (cv q j)) /\ (k < len -> anc p z (cv q k)).
Lemma cvq_lt j : cv q j < n.
Proof. apply (fd_lt x u l Bk P). apply cv_in. Qed.
Lemma hangs_ex z : exists k, hangs z k.
Proof.
  assert (H : forall d, d <= len -> (exists k, k < d /\ (forall j, j < k -> ~ anc p z (cv q j)) /\ anc p z (cv q k)) \/ (forall j, j < d -> ~ anc p z (cv q j))).
  { induction d as [|d IH]; intro Hd; [right; intros j Hj; inversion Hj|]. destruct IH as [(k & A & B)|A]; [lia|left; exists k; split; [lia|exact B]|].
    destruct (anc_dec z (cv q d) (cvq_lt d)) as [Q|Q]; [left; exists d; split; [lia|split; [exact A|exact Q]]|]. right. intros j Hj. destruct (Nat.eq_dec j d) as [->|N]; [exact Q|apply A; lia]. }
  destruct (H len (Nat.le_refl _)) as [(k & A & B & D)|A].
  - exists k. split; [lia|]. auto.
  - exists len. split; [lia|]. split; [exact A|lia].
Qed.
Lemma hangs_fun z k k' : hangs z k -> hangs z k' -> k = k'.
Proof.
  intros (A & B & D) (A' & B' & D'). destruct (Nat.lt_trichotomy k k') as [Q|[Q|Q]]; [|exact Q|]; exfalso; [apply (B' k Q); apply D; lia|apply (B k' Q); apply D'; lia].
Qed.
Lemma cv_up i j : i <= j -> j <= len -> anc p (cv q i) (cv q j).
Proof. intro H. induction H as [|j H IH]; intro Hj; [apply anc_refl|]. eapply anc_trans; [apply IH; lia|]. apply anc_par. apply (fd_up x u l P). lia. Qed.
Lemma hangs_cv j : j <= len -> hangs (cv q j) j.
Proof.
  intro H. split; [exact H|]. split; [|intros _; apply anc_refl]. intros i Hi A. pose proof (cv_up i j ltac:(lia) H) as B.
  assert (E : cv q j = cv q i) by (apply asym; [apply cvq_lt|exact A|exact B]). apply cv_inj in E; [lia|apply (fd_nodup x u l Bk P)|cbn; lia|cbn; lia].
Qed.
Lemma hangs_edge a b ka kb : a < n -> b < n -> W a b <> 0%N -> anc p a b -> hangs a ka -> hangs b kb -> ka <> kb -> cycle_edge q a b.
Proof.
  intros Ha Hb D A Ka Kb Ne. assert (Dec : p a = Some b \/ p a <> Some b) by (destruct (p a) as [w|]; [destruct (Nat.eq_dec w b); [left; congruence|right; congruence]|right; discriminate]). destruct Dec as [E|E].
  - destruct (in_dec Nat.eq_dec a q) as [I|I]; [destruct (Nat.eq_dec a u) as [Q|Q]|]; [|apply (fd_on x u l P); auto|].
    + subst a. exfalso. apply Ne. assert (X1 : ka = len). { apply (hangs_fun u); [exact Ka|]. rewrite <- (fd_last x u l P). apply hangs_cv. apply Nat.le_refl. }
      assert (X2 : kb = len); [|congruence]. apply (hangs_fun b); [exact Kb|]. split; [lia|]. split; [|lia]. intros j Hj Q. apply (strict u b E). eapply anc_trans; [exact Q|]. rewrite <- (fd_last x u l P). apply cv_up; lia.
    + exfalso. apply Ne. apply (hangs_fun a); [exact Ka|]. destruct Kb as (B1 & B2 & B3). split; [exact B1|]. split.
      * intros j Hj Q. apply (B2 j Hj). apply anc_inv in Q as [Q|(y & E2 & Q)]; [exfalso; apply I; rewrite Q; apply cv_in|]. rewrite E in E2. injection E2 as <-. exact Q.
      * intro Q. eapply anc_trans; [exact A|]. apply B3. exact Q.
  - destruct (Nat.eq_dec a b) as [Q|Nab]; [subst b; exfalso; apply Ne; apply (hangs_fun a); auto|].
    assert (Bk' : back a b) by (repeat split; auto). destruct (anc_path p a b A) as (q' & P'). destruct (path_head _ _ _ _ P') as (l' & ->).
    destruct Ka as (A1 & A2 & A3). destruct Kb as (B1 & B2 & B3).
    assert (Lt : ka < kb). { destruct (Nat.lt_trichotomy ka kb) as [Q|[Q|Q]]; [exact Q|contradiction|]. exfalso. apply (A2 kb Q). eapply anc_trans; [exact A|]. apply B3. lia. }
    assert (X1 : anc p a (cv q ka)) by (apply A3; lia). assert (X2 : ~ anc p b (cv q ka)) by (apply B2; exact Lt).
    destruct (anc_chain p a (cv q ka) b X1 A) as [X3|X3]; [|contradiction].
    assert (I : In (cv q ka) (a :: l')) by (apply (path_between p start a b); auto).
    assert (Nv : cv q ka <> b) by (intro Q; apply X2; rewrite Q; apply anc_refl).
    assert (Up : p (cv q ka) = Some (cv q (S ka))) by (apply (fd_up x u l P); lia).
    pose proof (fd_on a b l' P' _ _ I Nv Up) as E1. assert (E2 : cycle_edge q (cv q ka) (cv q (S ka))) by (apply cycle_edge_i; discriminate).
    apply (ca_cycles _ _ _ Ca (a :: l') q _ _ (fd_cycle a b l' Bk' P') (fd_cycle x u l Bk P) E1 E2).
    apply cycle_edge_sym. exists (length l'). split; [cbn; lia|]. left. rewrite (fd_last a b l' P'), fd_wrap. auto.
Qed.

(** distance from i around the cycle *)
Definition off (i j : nat) : nat := (j + S len - i mod S len) mod S len.
Lemma off_at i k : k < S len -> off i ((i + k) mod S len) = k.
Proof.
  intro Hk. unfold off. set (a := i mod S len). assert (Ha : a < S len) by (apply Nat.mod_upper_bound; discriminate). rewrite <- (Nat.add_mod_idemp_l i) by discriminate. fold a. rewrite (mod_shift (S len) a k Ha Hk).
  destruct (Nat.ltb_spec (a + k) (S len)) as [Q|Q].
  - replace (a + k + S len - a) with (k + 1 * S len) by lia. rewrite Nat.mod_add by discriminate. apply Nat.mod_small. exact Hk.
  - replace (a + k - S len + S len - a) with k by lia. apply Nat.mod_small. exact Hk.
Qed.
Lemma off_inv i j : j < S len -> off i j < S len /\ j = (i + off i j) mod S len.
Proof.
  intro Hj. unfold off. split; [apply Nat.mod_upper_bound; discriminate|]. rewrite Nat.add_mod_idemp_r by discriminate. set (a := i mod S len). assert (Ha : a < S len) by (apply Nat.mod_upper_bound; discriminate).
  rewrite <- (Nat.add_mod_idemp_l i) by discriminate. fold a. replace (a + (j + S len - a)) with (j + 1 * S len) by lia. rewrite Nat.mod_add by discriminate. symmetry. apply Nat.mod_small. exact Hj.
Qed.
Lemma off_succ i j : j < S len -> off i (S j mod S len) = if S (off i j) =? S len then 0 else S (off i j).
Proof.
  intro Hj. destruct (off_inv i j Hj) as [A B]. set (o := off i j) in *. assert (E : S j mod S len = (i + S o) mod S len).
  { rewrite B. rewrite <- Nat.add_1_r, Nat.add_mod_idemp_l by discriminate. f_equal. lia. }
  rewrite E. destruct (Nat.eqb_spec (S o) (S len)) as [Q|Q].
  - rewrite Q. replace (i + S len) with (i + 0 + 1 * S len) by lia. rewrite Nat.mod_add by discriminate. apply off_at. lia.
  - apply off_at. lia.
Qed.

Lemma arc_cut i m : 0 < m < S len -> exists f,
  cut_by f (cv q (i + m + S len - 1)) (cv q (i + m)) (cv q i) (cv q (i + S len - 1)) /\ cutw n W f = c /\ light T (wsum f) = light T (arc (cycl T sub x l) i m).
Proof.
  intro Hm. destruct (choice hangs n) as (k & Hk); [intros; apply hangs_ex|]. set (f := fun z => off i (k z) <? m).
  assert (Kc : forall j, j < S len -> k (cv q j) = j) by (intros j Hj; apply (hangs_fun (cv q j)); [apply Hk; apply cvq_lt|apply hangs_cv; lia]).
  assert (Fc : forall j, f (cv q j) = (off i (j mod S len) <? m)).
  { intro j. unfold f. rewrite <- (cv_mod q j). cbn [length]. rewrite Kc by (apply Nat.mod_upper_bound; discriminate). reflexivity. }
  assert (Fo : forall t, t < S len -> f (cv q (i + t)) = (t <? m)) by (intros t Ht; rewrite Fc, off_at by exact Ht; reflexivity).
  assert (Hf : forall a b, a < n -> b < n -> W a b <> 0%N -> f a <> f b -> cycle_edge q a b).
  { intros a b A B D F. assert (N : k a <> k b) by (intro Q; apply F; unfold f; rewrite Q; reflexivity). destruct (Hedge a b A B D) as [Q|Q].
    - apply (hangs_edge a b (k a) (k b)); auto.
    - apply cycle_edge_sym. apply (hangs_edge b a (k b) (k a)); auto; apply Wsym; auto. }
  pose proof (fd_cycle x u l Bk P) as Cy. pose proof Cy as (Len & Nq & Cyi). cbn [length] in Len. assert (Ne : q <> []) by discriminate.
  set (n1 := cv q (i + m + S len - 1)). set (r1 := cv q (i + m)). set (n2 := cv q i). set (r2 := cv q (i + S len - 1)).
  assert (En1 : n1 = cv q (i + (m - 1))). { unfold n1. replace (i + m + S len - 1) with (i + (m - 1) + length q) by (cbn; lia). apply cv_add. exact Ne. }
  assert (Er2 : r2 = cv q (i + len)) by (unfold r2; f_equal; lia).
  assert (Sr1 : cv q (S (i + (m - 1))) = r1) by (unfold r1; f_equal; lia).
  assert (Sn2 : cv q (S (i + len)) = n2). { unfold n2. replace (S (i + len)) with (i + length q) by (cbn; lia). apply cv_add. exact Ne. }
  assert (F1 : f n1 = true) by (rewrite En1, Fo by lia; apply Nat.ltb_lt; lia). assert (F2 : f r1 = false) by (unfold r1; rewrite Fo by lia; apply Nat.ltb_irrefl).
  assert (F3 : f n2 = true) by (unfold n2; rewrite <- (Nat.add_0_r i), Fo by lia; apply Nat.ltb_lt; lia). assert (F4 : f r2 = false) by (rewrite Er2, Fo by lia; apply Nat.ltb_ge; lia).
  assert (All : forall a b, crossing n W f (a, b) -> (a = n1 /\ b = r1) \/ (a = n2 /\ b = r2)).
  { intros a b (A & B & D1 & D2 & D3). cbn [fst snd] in *. destruct (Hf a b A B D3 ltac:(congruence)) as (j & Hj & Q). cbn [length] in Hj.
    destruct (off_inv i j Hj) as [O1 O2]. pose proof (off_succ i j Hj) as O3. assert (Fj : f (cv q j) = (off i j <? m)) by (rewrite Fc, Nat.mod_small by exact Hj; reflexivity).
    assert (Fs : f (cv q (S j)) = (off i (S j mod S len) <? m)) by apply Fc. rewrite O3 in Fs.
    assert (Cj : cv q j = cv q (i + off i j)) by (rewrite <- (cv_mod q (i + _)); cbn [length]; rewrite <- O2; reflexivity).
    assert (Cs : cv q (S j) = cv q (S (i + off i j))) by (rewrite <- (cv_succ q (i + _)) by exact Ne; cbn [length]; rewrite <- O2; reflexivity).
    destruct Q as [[-> ->]|[-> ->]].
    - left. rewrite D1 in Fj. rewrite D2 in Fs. symmetry in Fj, Fs. apply Nat.ltb_lt in Fj. apply Nat.ltb_ge in Fs.
      assert (O4 : off i j = m - 1) by (destruct (Nat.eqb_spec (S (off i j)) (S len)); lia). rewrite Cj, Cs, O4, En1, Sr1. auto.
    - right. rewrite D2 in Fj. rewrite D1 in Fs. symmetry in Fj, Fs. apply Nat.ltb_ge in Fj. apply Nat.ltb_lt in Fs.
      assert (O4 : off i j = len) by (destruct (Nat.eqb_spec (S (off i j)) (S len)); lia). rewrite Cj, Cs, O4, Er2, Sn2. auto. }
  assert (L1 : n1 < n) by apply cvq_lt. assert (L2 : r1 < n) by apply cvq_lt. assert (L3 : n2 < n) by apply cvq_lt. assert (L4 : r2 < n) by apply cvq_lt.
  assert (W1 : W n1 r1 <> 0%N) by (rewrite En1, <- Sr1; apply Cyi). assert (W2 : W r2 n2 <> 0%N) by (rewrite Er2, <- Sn2; apply Cyi).
  assert (W2' : W n2 r2 <> 0%N) by (apply Wsym; auto).
  assert (E1 : cycle_edge q n1 r1) by (rewrite En1, <- Sr1; apply cycle_edge_i; exact Ne). assert (E2 : cycle_edge q n2 r2) by (rewrite Er2, <- Sn2; apply cycle_edge_sym; apply cycle_edge_i; exact Ne).
  assert (H1 : (2 * W n1 r1)%N = c) by (destruct (ca_weights _ _ _ Ca n1 r1 L1 L2 W1) as [[_ Q]|[Q _]]; [destruct (Q _ Cy E1)|exact Q]).
  assert (H2 : (2 * W n2 r2)%N = c) by (destruct (ca_weights _ _ _ Ca n2 r2 L3 L4 W2') as [[_ Q]|[Q _]]; [destruct (Q _ Cy E2)|exact Q]).
  assert (Nn : (n1, r1) <> (n2, r2)).
  { intro Q. injection Q as Q1 Q2. assert (X : (i + (m - 1)) mod length q = (i + len) mod length q).
    { apply (cycle_pair_inj n W q); [exact Cy|apply Nat.mod_upper_bound; discriminate|apply Nat.mod_upper_bound; discriminate|]. rewrite !cv_mod, !cv_succ by exact Ne. right. rewrite <- En1, Sr1, Sn2, <- Er2. auto. }
    cbn [length] in X. rewrite <- (Nat.add_mod_idemp_l i (m - 1)), <- (Nat.add_mod_idemp_l i len) in X by discriminate. apply mod_inj in X; [lia|apply Nat.mod_upper_bound; discriminate|lia|lia]. }
  exists f. split; [|split].
  - repeat split; auto.
  - assert (Hw : (sumN (fun e => W (fst e) (snd e)) [(n1, r1); (n2, r2)] = c)%N) by (unfold sumN; cbn [fold_right map fst snd]; clear - H1 H2; lia).
    rewrite <- Hw. apply N.le_antisymm.
    + apply cutw_le. intros [a b] Q. apply All in Q as [[-> ->]|[-> ->]]; [left; reflexivity|right; left; reflexivity].
    + apply cutw_ge; [constructor; [intros [Q|[]]; congruence|constructor; [intros []|constructor]]|]. intros e [<-|[<-|[]]]; repeat split; auto.
  - f_equal. rewrite (fd_weight x u l Bk P f Hf), fw_index. set (w := cwgt (cycl T sub x l)).
    rewrite <- (bsum_period (S len) (fun j => if f (cv q j) then w j else 0%N) i).
    + unfold arc. fold w. replace (S len) with (m + (S len - m)) by lia. rewrite bsum_app. rewrite (bsum_zero (S len - m)); [rewrite N.add_0_r|].
      * apply bsum_ext. intros t Ht. rewrite Fo by lia. destruct (Nat.ltb_spec t m) as [Q|Q]; [reflexivity|lia].
      * intros t Ht. rewrite Fo by lia. destruct (Nat.ltb_spec (m + t) m) as [Q|Q]; [lia|reflexivity].
    + intro j. change (S len) with (length q). rewrite cv_add by exact Ne. unfold w. change (length q) with (S len). rewrite <- (cycl_len T sub x l), cwgt_period by discriminate. reflexivity.
Qed.
End Arc.
End Tree.
