(* P_Balanced.v - ancestors in a parent function, the two pointer search over a cycle (for the most balanced minimum cut). *)
From Verif Require Import M_Balanced SpecCut.

(** ** ancestors *)
Inductive steps (p : nat -> option nat) : nat -> nat -> nat -> Prop :=
| steps_0 x : steps p 0 x x
| steps_S k x y v : p x = Some y -> steps p k y v -> steps p (S k) x v.
Definition anc (p : nat -> option nat) (x v : nat) : Prop := exists k, steps p k x v.

Lemma anc_refl p x : anc p x x.
Proof. exists 0. constructor. Qed.
Lemma anc_par p x y : p x = Some y -> anc p x y.
Proof. intro H. exists 1. econstructor; [exact H|constructor]. Qed.
Lemma steps_trans p j k x y z : steps p j x y -> steps p k y z -> steps p (j + k) x z.
Proof. induction 1; intro H'; [exact H'|]. cbn. econstructor; eauto. Qed.
Lemma anc_trans p x y z : anc p x y -> anc p y z -> anc p x z.
Proof. intros [j A] [k B]. exists (j + k). eapply steps_trans; eauto. Qed.
Lemma anc_inv p x v : anc p x v -> x = v \/ exists y, p x = Some y /\ anc p y v.
Proof. intros [k A]. inversion A; subst; [left; reflexivity|]. right. exists y. split; [auto|]. exists k0. auto. Qed.
Lemma anc_step p x y v : p x = Some y -> anc p y v -> anc p x v.
Proof. intros A [k B]. exists (S k). econstructor; eauto. Qed.

(** ancestors of one vertex form a chain *)
Lemma anc_chain p x y z : anc p x y -> anc p x z -> anc p y z \/ anc p z y.
Proof.
  intros [j A]. revert z. induction A as [x|j x x' v H A IH]; intros z B; [left; exact B|].
  apply anc_inv in B as [->|(y' & E & B)]; [right; exists (S j); econstructor; eauto|].
  rewrite H in E. injection E as <-. apply IH. exact B.
Qed.

(** the number of steps to a vertex without parent is unique *)
Lemma steps_root p r j k x : p r = None -> steps p j x r -> steps p k x r -> j = k.
Proof.
  intros Hr A. revert k. induction A as [x|j x y v H A IH]; intros k B.
  - inversion B; subst; [reflexivity|]. congruence.
  - inversion B; subst; [congruence|]. match goal with E : p x = Some ?z |- _ => rewrite H in E; injection E as <- end. f_equal. apply IH; auto.
Qed.
Lemma anc_antisym p r x y : p r = None -> anc p y r -> anc p x y -> anc p y x -> x = y.
Proof.
  intros Hr [k A] [i B] [j C]. pose proof (steps_trans _ _ _ _ _ _ B A) as D. pose proof (steps_trans _ _ _ _ _ _ C D) as E.
  pose proof (steps_root _ _ _ _ _ Hr A E). assert (i = 0) by lia. subst i. inversion B. reflexivity.
Qed.
Lemma par_strict p r x y : p r = None -> anc p y r -> p x = Some y -> ~ anc p y x.
Proof.
  intros Hr A E B. pose proof (anc_antisym p r x y Hr A (anc_par _ _ _ E) B) as Q. subst y.
  destruct A as [k A]. pose proof (steps_trans _ _ _ _ _ _ (steps_S _ _ _ _ _ E (steps_0 _ _)) A) as D. pose proof (steps_root _ _ _ _ _ Hr A D). lia.
Qed.

(** extension of a parent function *)
Lemma anc_ext (p p' : nat -> option nat) (Q : nat -> Prop) x v :
  (forall z y, Q z -> p z = Some y -> Q y) -> (forall z, Q z -> p' z = p z) -> Q x -> (anc p x v <-> anc p' x v).
Proof.
  intros Cl E Hx. split; intros [k A].
  - induction A as [x|k x y v H A IH]; [apply anc_refl|]. apply (anc_step _ _ y); [rewrite E; auto|]. apply IH. eapply Cl; eauto.
  - revert Hx. induction A as [x|k x y v H A IH]; intro Hx; [apply anc_refl|]. rewrite E in H by auto. apply (anc_step _ _ y); [exact H|]. apply IH. eapply Cl; eauto.
Qed.
Lemma anc_closed (p : nat -> option nat) (Q : nat -> Prop) x v :
  (forall z y, Q z -> p z = Some y -> Q y) -> Q x -> anc p x v -> Q v.
Proof. intros Cl Hx [k A]. induction A; [exact Hx|]. apply IHA. eapply Cl; eauto. Qed.

(** the path from x up to u *)
Inductive path (p : nat -> option nat) : nat -> nat -> list nat -> Prop :=
| path_end x : path p x x [x]
| path_up x y u l : x <> u -> p x = Some y -> path p y u l -> path p x u (x :: l).
Lemma anc_path p x u : anc p x u -> exists l, path p x u l.
Proof.
  intros [k A]. induction A as [x|k x y v H A (l & IH)]; [exists [x]; constructor|].
  destruct (Nat.eq_dec x v) as [->|N]; [exists [v]; constructor|]. exists (x :: l). econstructor; eauto.
Qed.
Lemma path_anc p x u l : path p x u l -> anc p x u.
Proof. induction 1; [apply anc_refl|eapply anc_step; eauto]. Qed.
Lemma path_head p x u l : path p x u l -> exists t, l = x :: t.
Proof. destruct 1; eauto. Qed.
Lemma path_mid p x u l y : path p x u l -> In y l -> anc p x y /\ anc p y u.
Proof.
  induction 1 as [x|x z u l N H P IH]; intro I.
  - destruct I as [<-|[]]. split; apply anc_refl.
  - destruct I as [<-|I]; [split; [apply anc_refl|eapply path_anc; econstructor; eauto]|]. destruct (IH I) as [A B]. split; [eapply anc_step; eauto|exact B].
Qed.
Lemma path_between p r x u l y : p r = None -> anc p u r -> path p x u l -> anc p x y -> anc p y u -> In y l.
Proof.
  intros Hr Hu P. induction P as [x|x z u l N H P IH]; intros A B.
  - left. apply (anc_antisym p r); auto. eapply anc_trans; eauto.
  - apply anc_inv in A as [->|(z' & E & A)]; [left; reflexivity|]. right. rewrite H in E. injection E as <-. apply IH; auto.
Qed.
Lemma path_nodup p r x u l : p r = None -> anc p u r -> path p x u l -> NoDup l.
Proof.
  intros Hr Hu P. induction P as [x|x z u l N H P IH]; [constructor; [intros []|constructor]|]. constructor; [|apply IH; auto].
  intro I. destruct (path_mid _ _ _ _ _ P I) as [A _]. revert A. apply (par_strict p r x z Hr); [|exact H]. eapply anc_trans; [eapply path_anc; exact P|exact Hu].
Qed.
Lemma path_last p x u l d : path p x u l -> last l d = u.
Proof. induction 1 as [x|x y u l N H P IH]; [reflexivity|]. destruct (path_head _ _ _ _ P) as [t ->]. cbn. exact IH. Qed.
Lemma path_ext (p p' : nat -> option nat) (Q : nat -> Prop) x u l :
  (forall z y, Q z -> p z = Some y -> Q y) -> (forall z, Q z -> p' z = p z) -> Q x -> path p x u l -> path p' x u l.
Proof. intros Cl E Hx P. induction P as [x|x y u l N H P IH]; [constructor|]. apply (path_up p' x y u l); [exact N|rewrite E; auto|]. apply IH. eapply Cl; eauto. Qed.

Lemma path_fun p x u l l' : path p x u l -> path p x u l' -> l = l'.
Proof.
  intro P. revert l'. induction P as [x|x y u l N H P IH]; intros l' P'; inversion P'; subst; try congruence.
  match goal with E : p x = Some ?z |- _ => rewrite H in E; injection E as <- end. f_equal. apply IH. assumption.
Qed.

(** ** arcs of a cycle of weights *)
Definition cverb (cyc : list (nat * N)) (i : nat) : nat := fst (nth (i mod length cyc) cyc (0, 0%N)).
Definition cwgt (cyc : list (nat * N)) (i : nat) : N := snd (nth (i mod length cyc) cyc (0, 0%N)).
Definition psum (cyc : list (nat * N)) (i : nat) : N := bsum i (cwgt cyc).
(** weight of the arc of m vertices from index i *)
Definition arc (cyc : list (nat * N)) (i m : nat) : N := bsum m (fun k => cwgt cyc (i + k)).
Definition light (T w : N) : N := N.min w (T - w).

Lemma psum_arc cyc i m : psum cyc (i + m) = (psum cyc i + arc cyc i m)%N.
Proof. unfold psum, arc. induction m as [|m IH]; [rewrite Nat.add_0_r; cbn; lia|]. rewrite Nat.add_succ_r, !bsum_S, IH. lia. Qed.
Lemma psum_mono cyc i j : i <= j -> (psum cyc i <= psum cyc j)%N.
Proof. intro H. replace j with (i + (j - i)) by lia. rewrite psum_arc. lia. Qed.
Lemma bsum_period len (g : nat -> N) i : (forall k, g (k + len) = g k) -> bsum len (fun k => g (i + k)) = bsum len g.
Proof.
  intro P. induction i as [|i IH]; [apply bsum_ext; reflexivity|]. rewrite <- IH. destruct len as [|len]; [reflexivity|].
  rewrite bsum_S. assert (E : bsum (S len) (fun k => g (i + k)) = (g i + bsum len (fun k => g (S i + k)%nat))%N).
  { clear IH P. induction len as [|len IH]; [rewrite bsum_S; cbn; rewrite Nat.add_0_r; lia|]. rewrite bsum_S, IH, (bsum_S len). replace (S i + len) with (i + S len) by lia. lia. }
  rewrite E. replace (S i + len) with (i + S len) by lia. rewrite P. lia.
Qed.
Lemma cwgt_period cyc k : cyc <> [] -> cwgt cyc (k + length cyc) = cwgt cyc k.
Proof. intro H. unfold cwgt. rewrite <- (Nat.mul_1_l (length cyc)) at 1. rewrite Nat.mod_add; [reflexivity|]. destruct cyc; [congruence|discriminate]. Qed.
Lemma arc_full cyc i : cyc <> [] -> arc cyc i (length cyc) = psum cyc (length cyc).
Proof. intro H. apply (bsum_period (length cyc) (cwgt cyc)). intro k. apply cwgt_period. exact H. Qed.

(** ** the two pointers *)
Section Slide.
Context (cond : bool) (G C : mg).
Notation T := (total_weight cond G C).

Definition recorded (cyc : list (nat * N)) (b : best) (i m : nat) : Prop :=
  b_cyc b = true /\ b_w b = light T (arc cyc i m) /\
  b_n b = cverb cyc (i + m + length cyc - 1) /\ (exists o, b_e b = edge_index (nth (b_n b) (m_rows C) []) (cverb cyc (i + m)) 0 o) /\
  b_n2 b = cverb cyc (i + length cyc - 1) /\ (exists o, b_e2 b = edge_index (nth (b_n2 b) (m_rows C) []) (cverb cyc i) 0 o).

Lemma lighter_light w : (w <= T)%N -> lighter cond G C w = Some (light T w).
Proof. intro H. unfold lighter, wsub. destruct (N.leb_spec w T); [reflexivity|lia]. Qed.

Lemma slide_ok cyc (b0 : best) : cyc <> [] -> psum cyc (length cyc) = T -> (0 < T)%N -> forall fuel B front b,
  let len := length cyc in
  B <= S len -> B <= front -> 1 <= front -> front <= B + len ->
  2 * (S len - B) + (B + len - front) <= fuel ->
  (b_w b0 <= b_w b)%N ->
  (b = b0 \/ exists i m, m <= len /\ recorded cyc b i m) ->
  (forall i m, i < B -> m <= len -> (light T (arc cyc i m) <= b_w b)%N) ->
  (forall m, B + m < front -> (light T (arc cyc B m) <= b_w b)%N /\ (2 * arc cyc B m < T)%N) ->
  exists b', slide cond G C fuel cyc (B + len) front (arc cyc B (front - B)) b = Some b' /\ (b_w b0 <= b_w b')%N /\
    (b' = b0 \/ exists i m, m <= len /\ recorded cyc b' i m) /\
    (forall i m, i <= len -> m <= len -> (light T (arc cyc i m) <= b_w b')%N).
Proof.
  intros Ne HT T0 fuel. induction fuel as [|fuel IH]; intros B front b len HB Bf F1 Ff Fu Hb Prov Cov Cur.
  - assert (B = S len) by lia. subst B. cbn [slide]. fold len.
    destruct (Nat.ltb_spec (2 * len) (S len + len)); [|lia]. exists b. split; [reflexivity|]. split; [exact Hb|]. split; [exact Prov|]. intros i m Hi Hm. apply Cov; lia.
  - cbn [slide]. fold len. destruct (Nat.ltb_spec (2 * len) (B + len)) as [E|E].
    { exists b. split; [reflexivity|]. split; [exact Hb|]. split; [exact Prov|]. intros i m Hi Hm. apply Cov; lia. }
    assert (L0 : 0 < len) by (unfold len; destruct cyc; [congruence|cbn; lia]).
    assert (Hfull : arc cyc B len = T) by (unfold len; rewrite arc_full; auto).
    assert (Ple : forall m, m <= len -> (arc cyc B m <= T)%N).
    { intros m Hm. pose proof (psum_arc cyc B m). pose proof (psum_arc cyc B len). pose proof (psum_mono cyc (B + m) (B + len) ltac:(lia)). lia. }
    set (inw := arc cyc B (front - B)) in *. assert (Hin : (inw <= T)%N) by (apply Ple; lia).
    rewrite (lighter_light inw Hin). cbv beta zeta.
    set (b' := if (b_w b <=? light T inw)%N then _ else b).
    assert (Hb' : (b_w b <= b_w b')%N /\ (light T inw <= b_w b')%N).
    { unfold b'. destruct (N.leb_spec (b_w b) (light T inw)); cbn [b_w]; lia. }
    assert (Prov' : b' = b0 \/ exists i m, m <= len /\ recorded cyc b' i m).
    { unfold b'. destruct (N.leb_spec (b_w b) (light T inw)) as [Le|Gt]; [|exact Prov]. right. exists B, (front - B). split; [lia|].
      unfold recorded. cbn [b_cyc b_w b_n b_e b_n2 b_e2]. assert (V : forall i, fst (nth (i mod len) cyc (0, 0%N)) = cverb cyc i) by reflexivity. rewrite !V.
      assert (V1 : cverb cyc (front - 1) = cverb cyc (B + (front - B) + length cyc - 1)).
      { unfold cverb. replace (B + (front - B) + length cyc - 1) with (front - 1 + 1 * length cyc) by lia. rewrite Nat.mod_add by (fold len; lia). reflexivity. }
      assert (V2 : cverb cyc (B + len) = cverb cyc B).
      { unfold cverb. fold len. replace (B + len) with (B + 1 * len) by lia. rewrite Nat.mod_add by lia. reflexivity. }
      rewrite V2, <- V1. replace (B + (front - B)) with front by lia. fold len.
      split; [reflexivity|]. split; [reflexivity|]. split; [reflexivity|]. split; [exists (b_e b); reflexivity|]. split; [reflexivity|]. exists (b_e2 b); reflexivity. }
    destruct (N.leb_spec T (inw * 2)) as [Le|Lt].
    + (* shrink *)
      assert (Bf' : B < front). { destruct (Nat.eq_dec B front) as [Q|Q]; [|lia]. exfalso. unfold inw in Le. rewrite Q, Nat.sub_diag in Le. cbn in Le. lia. }
      assert (Sh : forall m, B + S m <= front + len -> arc cyc B (S m) = (cwgt cyc B + arc cyc (S B) m)%N).
      { intros m _. pose proof (psum_arc cyc B (S m)). pose proof (psum_arc cyc (S B) m). replace (S B + m) with (B + S m) in * by lia.
        assert (psum cyc (S B) = psum cyc B + cwgt cyc B)%N by (unfold psum; rewrite bsum_S; reflexivity). lia. }
      assert (Q : snd (nth ((B + len) mod len) cyc (0, 0%N)) = cwgt cyc B).
      { fold (cwgt cyc (B + len)). apply cwgt_period. exact Ne. }
      rewrite Q. assert (E1 : inw = (cwgt cyc B + arc cyc (S B) (front - S B))%N).
      { unfold inw. replace (front - B) with (S (front - S B)) by lia. apply Sh. lia. }
      unfold wsub. destruct (N.leb_spec (cwgt cyc B) inw) as [_|]; [|lia]. replace (inw - cwgt cyc B)%N with (arc cyc (S B) (front - S B)) by lia.
      apply (IH (S B) front b'); try lia; [exact Prov'| |].
      * intros i m Hi Hm. destruct (Nat.eq_dec i B) as [->|N]; [|specialize (Cov i m ltac:(lia) Hm); lia].
        destruct (Nat.lt_trichotomy (B + m) front) as [L|[L|L]].
        -- destruct (Cur m L). lia.
        -- replace m with (front - B) by lia. fold inw. lia.
        -- assert (inw <= arc cyc B m)%N. { unfold inw. pose proof (psum_arc cyc B m). pose proof (psum_arc cyc B (front - B)). pose proof (psum_mono cyc (B + (front - B)) (B + m) ltac:(lia)). lia. }
           unfold light in *. pose proof (Ple m Hm). lia.
      * intros m Hm. destruct (Cur (S m) ltac:(lia)) as [A1 A2]. rewrite Sh in A1, A2 by lia. unfold light in *. lia.
    + (* grow *)
      assert (Fl : front < B + len). { destruct (Nat.eq_dec front (B + len)) as [Q|Q]; [|lia]. exfalso. unfold inw in Lt. replace (front - B) with len in Lt by lia. lia. }
      assert (E1 : (inw + cwgt cyc front)%N = arc cyc B (S front - B)).
      { unfold inw. replace (S front - B) with (S (front - B)) by lia. unfold arc. rewrite bsum_S. replace (B + (front - B)) with front by lia. reflexivity. }
      change (snd (nth (front mod len) cyc (0, 0%N))) with (cwgt cyc front). rewrite E1. apply (IH B (S front) b'); try lia; [exact Prov'| |].
      * intros i m Hi Hm. specialize (Cov i m Hi Hm). lia.
      * intros m Hm. destruct (Nat.eq_dec (B + m) front) as [Q|Q].
        -- replace m with (front - B) by lia. fold inw. lia.
        -- destruct (Cur m ltac:(lia)). lia.
Qed.

Lemma slide_start cyc b0 : cyc <> [] -> psum cyc (length cyc) = T -> (0 < T)%N ->
  exists b', slide cond G C (4 * length cyc + 4) cyc (length cyc) 1 (cwgt cyc 0) b0 = Some b' /\ (b_w b0 <= b_w b')%N /\
    (b' = b0 \/ exists i m, m <= length cyc /\ recorded cyc b' i m) /\
    (forall i m, i <= length cyc -> m <= length cyc -> (light T (arc cyc i m) <= b_w b')%N).
Proof.
  intros Ne HT T0. assert (0 < length cyc) by (destruct cyc; [congruence|cbn; lia]).
  pose proof (slide_ok cyc b0 Ne HT T0 (4 * length cyc + 4) 0 1 b0) as S. cbv zeta in S. cbn [Nat.add Nat.sub] in S.
  assert (A : arc cyc 0 1 = cwgt cyc 0) by (unfold arc; rewrite bsum_S; cbn; lia). rewrite A in S.
  destruct S as (b' & X); try lia.
  - left; reflexivity.
  - intros m Hm. assert (m = 0) by lia. subst m. unfold arc, light. cbn [bsum]. cbn. split; lia.
  - exists b'. exact X.
Qed.
End Slide.
