(* P_StCactus2.v - proofs about findSTCactus, part 2: the cuts of a chain of edges and cycles. *)
From Verif Require Import SpecCut SpecDyn P_Cut P_LocalSearch2 P_Crossing P_StCactus.

(** changes of f along a path *)
Fixpoint nch (f : nat -> bool) (p : nat) (l : list nat) : nat :=
  match l with [] => 0 | x :: l' => (if Bool.eqb (f p) (f x) then 0 else 1) + nch f x l' end.

Lemma eqb_t a b : Bool.eqb a b = true -> a = b.
Proof. destruct a, b; cbn; congruence. Qed.
Lemma eqb_f a b : Bool.eqb a b = false -> a = negb b.
Proof. destruct a, b; cbn; congruence. Qed.

Section Path.
Context (f : nat -> bool) (q : nat).
Lemma nch0 : forall len a p, nch f p (seq a len ++ [q]) = 0 -> (forall x, a <= x < a + len -> f x = f p) /\ f q = f p.
Proof.
  induction len as [|len IH]; intros a p; cbn [seq app nch].
  - destruct (Bool.eqb (f p) (f q)) eqn:E; intro H; [|nlia]. apply eqb_t in E. split; [intros; lia|auto].
  - destruct (Bool.eqb (f p) (f a)) eqn:E; intro H; [|nlia]. apply eqb_t in E. destruct (IH (Datatypes.S a) a ltac:(nlia)) as [A B]. split; [|congruence].
    intros x Hx. destruct (Nat.eq_dec x a) as [Q|D]; [congruence|]. rewrite E. apply A. nlia.
Qed.
Lemma nch1 : forall len a p, nch f p (seq a len ++ [q]) = 1 -> exists i, a <= i <= a + len /\ (forall x, a <= x < i -> f x = f p) /\ (forall x, i <= x < a + len -> f x = negb (f p)) /\ f q = negb (f p).
Proof.
  induction len as [|len IH]; intros a p; cbn [seq app nch].
  - destruct (Bool.eqb (f p) (f q)) eqn:E; intro H; [nlia|]. apply eqb_f in E. exists a. split; [lia|]. split; [intros; lia|]. split; [intros; lia|]. rewrite E, negb_involutive. reflexivity.
  - destruct (Bool.eqb (f p) (f a)) eqn:E; intro H.
    + apply eqb_t in E. destruct (IH (Datatypes.S a) a ltac:(nlia)) as (i & I & A & B & C). exists i. split; [nlia|]. split; [|split].
      * intros x Hx. destruct (Nat.eq_dec x a) as [Q|D]; [congruence|]. rewrite E. apply A. nlia.
      * intros x Hx. rewrite E. apply B. nlia.
      * congruence.
    + apply eqb_f in E. destruct (nch0 len (Datatypes.S a) a ltac:(nlia)) as [A B]. exists a. rewrite E, negb_involutive. split; [nlia|]. split; [intros; lia|]. split; [|auto].
      intros x Hx. destruct (Nat.eq_dec x a) as [Q|D]; [congruence|]. apply A. nlia.
Qed.
Lemma nch2 : forall len a p, nch f p (seq a len ++ [q]) = 2 -> exists i j, a <= i /\ i < j /\ j <= a + len /\ (forall x, a <= x < i -> f x = f p) /\ (forall x, i <= x < j -> f x = negb (f p)) /\ (forall x, j <= x < a + len -> f x = f p) /\ f q = f p.
Proof.
  induction len as [|len IH]; intros a p; cbn [seq app nch].
  - destruct (Bool.eqb (f p) (f q)); intro H; nlia.
  - destruct (Bool.eqb (f p) (f a)) eqn:E; intro H.
    + apply eqb_t in E. destruct (IH (Datatypes.S a) a ltac:(nlia)) as (i & j & I & IJ & J & A & B & C & D). exists i, j. split; [nlia|]. split; [nlia|]. split; [nlia|]. split; [|split; [|split]].
      * intros x Hx. destruct (Nat.eq_dec x a) as [Q|Q]; [congruence|]. rewrite E. apply A. nlia.
      * intros x Hx. rewrite E. apply B. nlia.
      * intros x Hx. rewrite E. apply C. nlia.
      * congruence.
    + apply eqb_f in E. destruct (nch1 len (Datatypes.S a) a ltac:(nlia)) as (i & I & A & B & C). assert (E' : f a = negb (f p)) by (rewrite E, negb_involutive; reflexivity).
      rewrite E' in A, B, C. rewrite negb_involutive in B, C. exists a, i. split; [nlia|]. split; [nlia|]. split; [nlia|]. split; [intros; lia|]. split; [|split; [|auto]].
      * intros x Hx. destruct (Nat.eq_dec x a) as [Q|Q]; [congruence|]. apply A. nlia.
      * intros x Hx. apply B. nlia.
Qed.
Lemma nch_parity : forall l p, Nat.even (nch f p (l ++ [q])) = Bool.eqb (f p) (f q).
Proof.
  induction l as [|x l IH]; intro p; cbn [app nch].
  - destruct (f p), (f q); reflexivity.
  - rewrite Nat.even_add, IH. destruct (f p), (f x), (f q); reflexivity.
Qed.
Lemma nch0_conv : forall len a p, (forall x, a <= x < a + len -> f x = f p) -> f q = f p -> nch f p (seq a len ++ [q]) = 0.
Proof.
  induction len as [|len IH]; intros a p A B; cbn [seq app nch].
  - rewrite B, eqb_reflx. reflexivity.
  - pose proof (A a ltac:(lia)) as E. rewrite E, eqb_reflx. cbn. apply IH; [|congruence]. intros x Hx. rewrite E. apply A. lia.
Qed.
Lemma nch1_conv : forall len a p i, a <= i <= a + len -> (forall x, a <= x < i -> f x = f p) -> (forall x, i <= x < a + len -> f x = negb (f p)) -> f q = negb (f p) -> nch f p (seq a len ++ [q]) = 1.
Proof.
  induction len as [|len IH]; intros a p i I A B C; cbn [seq app nch].
  - rewrite C. destruct (f p); reflexivity.
  - destruct (Nat.eq_dec i a) as [Q|Q].
    + pose proof (B a ltac:(lia)) as E. rewrite (nch0_conv len (Datatypes.S a) a); [rewrite E; destruct (f p); reflexivity| |congruence].
      intros x Hx. rewrite E. apply B. lia.
    + pose proof (A a ltac:(lia)) as E. rewrite E, eqb_reflx. cbn. apply (IH _ _ i); [lia| | |congruence]; intros x Hx; rewrite E; [apply A|apply B]; lia.
Qed.
Lemma nch2_conv : forall len a p i j, a <= i -> i < j -> j <= a + len -> (forall x, a <= x < i -> f x = f p) -> (forall x, i <= x < j -> f x = negb (f p)) -> (forall x, j <= x < a + len -> f x = f p) -> f q = f p -> nch f p (seq a len ++ [q]) = 2.
Proof.
  induction len as [|len IH]; intros a p i j I IJ J A B C D; cbn [seq app nch]; [lia|].
  destruct (Nat.eq_dec i a) as [Q|Q].
  - pose proof (B a ltac:(lia)) as E. rewrite (nch1_conv len (Datatypes.S a) a j); [rewrite E; destruct (f p); reflexivity|lia| | |rewrite E, negb_involutive; congruence].
    + intros x Hx. rewrite E. apply B. lia.
    + intros x Hx. rewrite E, negb_involutive. apply C. lia.
  - pose proof (A a ltac:(lia)) as E. rewrite E, eqb_reflx. cbn. apply (IH _ _ i j); [lia|lia|lia| | | |congruence]; intros x Hx; rewrite E; [apply A|apply B|apply C]; lia.
Qed.
End Path.

(** a link from p to q: an edge of weight c, or a cycle p, a, .., a+len-1, q of edges of weight c/2 *)
Record link := mk_link { l_p : nat; l_a : nat; l_len : nat; l_q : nat }.
Definition lw (c : N) (f : nat -> bool) (l : link) : N :=
  if l_len l =? 0 then dif f (l_p l) (l_q l) c
  else (N.of_nat (nch f (l_p l) (seq (l_a l) (l_len l) ++ [l_q l])) * (c / 2) + dif f (l_p l) (l_q l) (c / 2))%N.
Definition tot (c : N) (f : nat -> bool) (ls : list link) : N := sumN (lw c f) ls.

(** a link is quiet if f is constant on it *)
Definition quiet (f : nat -> bool) (l : link) : Prop := (forall x, l_a l <= x < l_a l + l_len l -> f x = f (l_p l)) /\ f (l_q l) = f (l_p l).

Section Link.
Context (c : N) (Pc : (0 < c)%N).
Lemma lw_cases f l : (l_len l = 0 \/ c = (2 * (c / 2))%N) ->
  (lw c f l = 0%N /\ quiet f l) \/
  (lw c f l = c /\ ((exists i, l_a l <= i <= l_a l + l_len l /\ (forall x, l_a l <= x < i -> f x = f (l_p l)) /\ (forall x, i <= x < l_a l + l_len l -> f x = negb (f (l_p l))) /\ f (l_q l) = negb (f (l_p l))) \/
                   (exists i j, l_a l <= i /\ i < j /\ j <= l_a l + l_len l /\ (forall x, l_a l <= x < i -> f x = f (l_p l)) /\ (forall x, i <= x < j -> f x = negb (f (l_p l))) /\ (forall x, j <= x < l_a l + l_len l -> f x = f (l_p l)) /\ f (l_q l) = f (l_p l)))) \/
  (c < lw c f l)%N.
Proof.
  destruct l as [p a len q]. unfold lw, quiet. cbn [l_p l_a l_len l_q]. intro Ev. destruct (Nat.eqb_spec len 0) as [Z|NZ].
  - subst len. unfold dif. destruct (Bool.eqb (f p) (f q)) eqn:E.
    + left. split; [auto|]. apply eqb_t in E. split; [intros; lia|auto].
    + right. left. split; [auto|]. left. apply eqb_f in E. exists a. split; [lia|]. split; [intros; lia|]. split; [intros; lia|]. rewrite E, negb_involutive. auto.
  - destruct Ev as [Ev|Ev]; [congruence|]. set (h := (c / 2)%N) in *. assert (Ph : (0 < h)%N) by (clear - Ev Pc; lia).
    pose proof (nch_parity f q (seq a len) p) as Par. destruct (nch f p (seq a len ++ [q])) as [|[|[|m]]] eqn:E.
    + left. destruct (nch0 f q len a p E) as [A B]. split; [|auto]. unfold dif. rewrite B, eqb_reflx. reflexivity.
    + right. left. destruct (nch1 f q len a p E) as (i & I & A & B & C). split; [|left; exists i; auto]. unfold dif. cbn in Par. rewrite <- Par. clear - Ev. lia.
    + right. left. destruct (nch2 f q len a p E) as (i & j & H). split; [|right; exists i, j; auto]. unfold dif. cbn in Par. rewrite <- Par. clear - Ev. lia.
    + right. right. clear - Ev Ph. assert ((3 * h <= N.of_nat (Datatypes.S (Datatypes.S (Datatypes.S m))) * h)%N) by (apply N.mul_le_mono_r; lia). lia.
Qed.
Lemma lw_quiet f l : quiet f l -> lw c f l = 0%N.
Proof.
  destruct l as [p a len q]. unfold lw, quiet. cbn [l_p l_a l_len l_q]. intros [A B]. unfold dif. rewrite B, eqb_reflx. destruct (len =? 0); [reflexivity|].
  rewrite (nch0_conv f q len a p A B). reflexivity.
Qed.
Lemma lw_pre f l i : (l_len l = 0 \/ c = (2 * (c / 2))%N) -> l_a l <= i <= l_a l + l_len l -> (forall x, l_a l <= x < i -> f x = f (l_p l)) -> (forall x, i <= x < l_a l + l_len l -> f x = negb (f (l_p l))) -> f (l_q l) = negb (f (l_p l)) -> lw c f l = c.
Proof.
  destruct l as [p a len q]. unfold lw. cbn [l_p l_a l_len l_q]. intros Ev I A B C. unfold dif.
  replace (Bool.eqb (f p) (f q)) with false by (rewrite C; destruct (f p); reflexivity). destruct (Nat.eqb_spec len 0) as [Z|NZ]; [reflexivity|].
  destruct Ev as [Ev|Ev]; [congruence|]. rewrite (nch1_conv f q len a p i I A B C). clear - Ev. lia.
Qed.
Lemma lw_itv f l i j : (l_len l = 0 \/ c = (2 * (c / 2))%N) -> l_a l <= i -> i < j -> j <= l_a l + l_len l -> (forall x, l_a l <= x < i -> f x = f (l_p l)) -> (forall x, i <= x < j -> f x = negb (f (l_p l))) -> (forall x, j <= x < l_a l + l_len l -> f x = f (l_p l)) -> f (l_q l) = f (l_p l) -> lw c f l = c.
Proof.
  destruct l as [p a len q]. unfold lw. cbn [l_p l_a l_len l_q]. intros Ev I IJ J A B C D. unfold dif. rewrite D, eqb_reflx. destruct (Nat.eqb_spec len 0) as [Z|NZ]; [lia|].
  destruct Ev as [Ev|Ev]; [congruence|]. rewrite (nch2_conv f q len a p i j I IJ J A B C D). clear - Ev. lia.
Qed.

(** a chain of links from p over the vertices lo..n-1 and the new vertices from nx on *)
Inductive chainl (n : nat) : nat -> nat -> nat -> list link -> nat -> Prop :=
| cl_nil p nx : chainl n p n nx [] nx
| cl_real p lo nx len ls e : lo + len < n -> chainl n (lo + len) (Datatypes.S (lo + len)) nx ls e -> (len = 0 \/ c = (2 * (c / 2))%N) -> chainl n p lo nx (mk_link p lo len (lo + len) :: ls) e
| cl_new p lo nx len ls e : 1 <= len -> lo + len < n -> chainl n nx (lo + len) (Datatypes.S nx) ls e -> (len = 0 \/ c = (2 * (c / 2))%N) -> chainl n p lo nx (mk_link p lo len nx :: ls) e.

Definition flat (n : nat) (f : nat -> bool) (p lo nx e : nat) : Prop := (forall x, lo <= x < n -> f x = f p) /\ (forall x, nx <= x < e -> f x = f p).

Lemma chainl_le n p lo nx ls e : chainl n p lo nx ls e -> nx <= e /\ lo <= n.
Proof. induction 1; lia. Qed.
Lemma chain_flat n f p lo nx ls e : chainl n p lo nx ls e -> flat n f p lo nx e -> tot c f ls = 0%N.
Proof.
  intro Ch. induction Ch as [p nx|p lo nx len ls e L Ch IH Ev|p lo nx len ls e L1 L Ch IH Ev]; intros [A B]; [reflexivity| |]; unfold tot; cbn [sumN]; fold (tot c f ls); rewrite IH, lw_quiet; auto.
  - split; cbn [l_p l_a l_len l_q]; [intros x Hx; apply A; lia|apply A; lia].
  - split; intros x Hx; rewrite (A (lo + len)) by lia; [apply A; lia|apply B; lia].
  - pose proof (chainl_le _ _ _ _ _ _ Ch). split; cbn [l_p l_a l_len l_q]; [intros x Hx; apply A; lia|apply B; lia].
  - pose proof (chainl_le _ _ _ _ _ _ Ch). split; intros x Hx; rewrite (B nx) by lia; [apply A; lia|apply B; lia].
Qed.
(** what the cuts below 2c look like *)
Lemma chain_cuts n f p lo nx ls e : chainl n p lo nx ls e ->
  (tot c f ls = 0%N /\ flat n f p lo nx e) \/
  (tot c f ls = c /\ exists i j, lo <= i /\ i < j /\ j <= n /\ (forall x, lo <= x < n -> f x = if (i <=? x) && (x <? j) then negb (f p) else f p) /\
     (j = n \/ exists l, In l ls /\ l_a l <= i /\ j <= l_a l + l_len l)) \/
  (c < tot c f ls)%N.
Proof.
  intro Ch. induction Ch as [p nx|p lo nx len ls e L Ch IH Ev|p lo nx len ls e L1 L Ch IH Ev].
  - left. split; [reflexivity|]. split; intros; lia.
  - unfold tot in *. cbn [sumN]. set (T := sumN (lw c f) ls) in *. destruct (lw_cases f (mk_link p lo len (lo + len)) Ev) as [[E [Q1 Q2]]|[[E D]|E]]; cbn [l_p l_a l_len l_q] in *.
    + rewrite E. rewrite N.add_0_l. destruct IH as [[E0 [F1 F2]]|[[E0 (i & j & I & IJ & J & F & Loc)]|E0]].
      * left. split; [auto|]. split; [|intros x Hx; rewrite F2 by lia; auto]. intros x Hx. destruct (lt_eq_lt_dec x (lo + len)) as [[?|Q]|?]; [apply Q1; lia|congruence|rewrite F1 by lia; auto].
      * right. left. split; [auto|]. exists i, j. split; [lia|]. split; [lia|]. split; [lia|]. split.
        -- intros x Hx. destruct (Nat.leb_spec i x) as [Lx|Lx]; cbn [andb].
           ++ rewrite F by lia. rewrite Q2. destruct (Nat.leb_spec i x); [|lia]. reflexivity.
           ++ destruct (lt_eq_lt_dec x (lo + len)) as [[?|Q]|?]; [apply Q1; lia|congruence|]. rewrite F by lia. destruct (Nat.leb_spec i x); [lia|]. cbn [andb]. auto.
        -- destruct Loc as [?|(l & Il & Hl)]; [left; auto|right; exists l; split; [right; auto|auto]].
      * right. right. auto.
    + destruct IH as [[E0 [F1 F2]]|[[E0 _]|E0]]; [|right; right; clear - E E0 Pc; lia|right; right; clear - E E0; lia].
      right. left. split; [rewrite E, E0; apply N.add_0_r|]. destruct D as [(i & I & A & B & C)|(i & j & I & IJ & J & A & B & C & D)].
      * exists i, n. split; [lia|]. split; [lia|]. split; [lia|]. split; [|left; auto]. intros x Hx. destruct (Nat.ltb_spec x n); [|lia]. rewrite andb_true_r. destruct (Nat.leb_spec i x).
        -- destruct (lt_eq_lt_dec x (lo + len)) as [[?|Q]|?]; [apply B; lia|congruence|rewrite F1 by lia; auto].
        -- apply A. lia.
      * exists i, j. split; [lia|]. split; [lia|]. split; [lia|]. split; [|right; exists (mk_link p lo len (lo + len)); cbn; split; [left; auto|lia]].
        intros x Hx. destruct (Nat.leb_spec i x); cbn [andb]; [|apply A; lia]. destruct (Nat.ltb_spec x j); [apply B; lia|].
        destruct (lt_eq_lt_dec x (lo + len)) as [[?|Q]|?]; [apply C; lia|congruence|rewrite F1 by lia; auto].
    + right. right. clear - E. lia.
  - unfold tot in *. cbn [sumN]. set (T := sumN (lw c f) ls) in *. destruct (lw_cases f (mk_link p lo len nx) Ev) as [[E [Q1 Q2]]|[[E D]|E]]; cbn [l_p l_a l_len l_q] in *.
    + rewrite E. rewrite N.add_0_l. destruct IH as [[E0 [F1 F2]]|[[E0 (i & j & I & IJ & J & F & Loc)]|E0]].
      * left. split; [auto|]. split.
        -- intros x Hx. destruct (Nat.lt_ge_cases x (lo + len)); [apply Q1; lia|rewrite F1 by lia; auto].
        -- intros x Hx. destruct (Nat.eq_dec x nx) as [Q|Q]; [congruence|]. rewrite F2 by lia. auto.
      * right. left. split; [auto|]. exists i, j. split; [lia|]. split; [lia|]. split; [lia|]. split.
        -- intros x Hx. destruct (Nat.lt_ge_cases x (lo + len)) as [Lx|Lx].
           ++ destruct (Nat.leb_spec i x); [lia|]. cbn [andb]. apply Q1. lia.
           ++ rewrite F by lia. rewrite Q2. reflexivity.
        -- destruct Loc as [?|(l & Il & Hl)]; [left; auto|right; exists l; split; [right; auto|auto]].
      * right. right. auto.
    + destruct IH as [[E0 [F1 F2]]|[[E0 _]|E0]]; [|right; right; clear - E E0 Pc; lia|right; right; clear - E E0; lia].
      right. left. split; [rewrite E, E0; apply N.add_0_r|]. destruct D as [(i & I & A & B & C)|(i & j & I & IJ & J & A & B & C & D)].
      * exists i, n. split; [lia|]. split; [lia|]. split; [lia|]. split; [|left; auto]. intros x Hx. destruct (Nat.ltb_spec x n); [|lia]. rewrite andb_true_r. destruct (Nat.leb_spec i x).
        -- destruct (Nat.lt_ge_cases x (lo + len)); [apply B; lia|rewrite F1 by lia; auto].
        -- apply A. lia.
      * exists i, j. split; [lia|]. split; [lia|]. split; [lia|]. split; [|right; exists (mk_link p lo len nx); cbn; split; [left; auto|lia]].
        intros x Hx. destruct (Nat.leb_spec i x); cbn [andb]; [|apply A; lia]. destruct (Nat.ltb_spec x j); [apply B; lia|].
        destruct (Nat.lt_ge_cases x (lo + len)); [apply C; lia|rewrite F1 by lia; auto].
    + right. right. clear - E. lia.
Qed.

(** the suffix from i on, and the new vertices from k on *)
Definition cutf (n i k y : nat) : bool := if y <? n then i <=? y else k <=? y.
Lemma chain_suffix n p lo nx ls e : chainl n p lo nx ls e -> n <= nx -> forall i, lo <= i < n -> p < lo \/ (n <= p /\ p < nx) -> exists k, nx <= k /\ tot c (cutf n i k) ls = c.
Proof.
  intro Ch. induction Ch as [p nx|p lo nx len ls e L Ch IH Ev|p lo nx len ls e L1 L Ch IH Ev]; intros Nx i I Hp; [lia| |].
  - destruct (Nat.le_gt_cases i (lo + len)) as [Li|Li].
    + exists nx. split; [lia|]. assert (Fp : cutf n i nx p = false). { unfold cutf. destruct (Nat.ltb_spec p n); bools. }
      unfold tot. cbn [sumN]. fold (tot c (cutf n i nx) ls). rewrite (chain_flat n _ _ _ _ _ _ Ch).
      * rewrite N.add_0_r. apply (lw_pre _ _ i); cbn [l_p l_a l_len l_q]; auto; try lia; rewrite Fp; unfold cutf; intros; repeat match goal with |- context [Nat.ltb ?a ?b] => destruct (Nat.ltb_spec a b) end; bools.
      * split; intros x Hx; unfold cutf; repeat match goal with |- context [Nat.ltb ?a ?b] => destruct (Nat.ltb_spec a b) end; bools.
    + destruct (IH Nx i ltac:(lia) ltac:(lia)) as (k & K & T). exists k. split; [auto|]. unfold tot. cbn [sumN]. fold (tot c (cutf n i k) ls). rewrite T, lw_quiet; [lia|].
      assert (Fp : cutf n i k p = false). { unfold cutf. destruct (Nat.ltb_spec p n); bools. }
      split; cbn [l_p l_a l_len l_q]; rewrite Fp; intros; unfold cutf; repeat match goal with |- context [Nat.ltb ?a ?b] => destruct (Nat.ltb_spec a b) end; bools.
  - destruct (Nat.lt_ge_cases i (lo + len)) as [Li|Li].
    + exists nx. split; [lia|]. assert (Fp : cutf n i nx p = false). { unfold cutf. destruct (Nat.ltb_spec p n); bools. }
      unfold tot. cbn [sumN]. fold (tot c (cutf n i nx) ls). rewrite (chain_flat n _ _ _ _ _ _ Ch).
      * rewrite N.add_0_r. apply (lw_pre _ _ i); cbn [l_p l_a l_len l_q]; auto; try lia; rewrite Fp; unfold cutf; intros; repeat match goal with |- context [Nat.ltb ?a ?b] => destruct (Nat.ltb_spec a b) end; bools.
      * split; intros x Hx; unfold cutf; repeat match goal with |- context [Nat.ltb ?a ?b] => destruct (Nat.ltb_spec a b) end; bools.
    + destruct (IH ltac:(lia) i ltac:(lia) ltac:(lia)) as (k & K & T). exists k. split; [lia|]. unfold tot. cbn [sumN]. fold (tot c (cutf n i k) ls). rewrite T, lw_quiet; [lia|].
      assert (Fp : cutf n i k p = false). { unfold cutf. destruct (Nat.ltb_spec p n); bools. }
      split; cbn [l_p l_a l_len l_q]; rewrite Fp; intros; unfold cutf; repeat match goal with |- context [Nat.ltb ?a ?b] => destruct (Nat.ltb_spec a b) end; bools.
Qed.
Lemma chain_itv n p lo nx ls e : chainl n p lo nx ls e -> n <= nx -> forall i j, i <= j -> (exists l, In l ls /\ l_a l <= i /\ j < l_a l + l_len l) -> p < lo \/ n <= p -> tot c (itv i j) ls = c /\ lo <= i.
Proof.
  intro Ch. induction Ch as [p nx|p lo nx len ls e L Ch IH Ev|p lo nx len ls e L1 L Ch IH Ev]; intros Nx i j IJ (l & Il & A & B) Hp; [contradiction| |]; pose proof (chainl_le _ _ _ _ _ _ Ch) as Le.
  - unfold tot. cbn [sumN]. fold (tot c (itv i j) ls). destruct Il as [<-|Il]; cbn [l_p l_a l_len l_q] in *.
    + split; [|lia]. rewrite (chain_flat n _ _ _ _ _ _ Ch) by (split; intros x Hx; bools). rewrite N.add_0_r.
      apply (lw_itv _ _ i (Datatypes.S j)); cbn [l_p l_a l_len l_q]; auto; try lia; intros; bools.
    + destruct (IH Nx i j IJ ltac:(exists l; auto) ltac:(lia)) as [T I]. rewrite T, lw_quiet; [split; lia|].
      assert (j < n). { clear - Ch Il B. induction Ch; [contradiction| |]; destruct Il as [<-|Il]; cbn in *; auto; lia. }
      split; cbn [l_p l_a l_len l_q]; intros; bools.
  - unfold tot. cbn [sumN]. fold (tot c (itv i j) ls). destruct Il as [<-|Il]; cbn [l_p l_a l_len l_q] in *.
    + split; [|lia]. rewrite (chain_flat n _ _ _ _ _ _ Ch) by (split; intros x Hx; bools). rewrite N.add_0_r.
      apply (lw_itv _ _ i (Datatypes.S j)); cbn [l_p l_a l_len l_q]; auto; try lia; intros; bools.
    + destruct (IH ltac:(lia) i j IJ ltac:(exists l; auto) ltac:(lia)) as [T I]. rewrite T, lw_quiet; [split; lia|].
      assert (j < n). { clear - Ch Il B. induction Ch; [contradiction| |]; destruct Il as [<-|Il]; cbn in *; auto; lia. }
      split; cbn [l_p l_a l_len l_q]; intros; bools.
Qed.
End Link.
