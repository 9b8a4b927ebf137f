(* P_ParUnionFind.v - proofs about M_ParUnionFind. *)
From Verif Require Export M_ParUnionFind SpecRel.

Section Sound.
Variable n : nat.

Definition pop_lt (o : pop) : Prop :=
  match o with PUnion a b => a < n /\ b < n | PFind a => a < n end.

Definition fpc_lt (f : fpc) : Prop :=
  match f with
  | F1 e | F2 e => e < n
  | F3 e x => e < n /\ x < n
  | F4 e x v => e < n /\ x < n /\ v < n
  | F5 x => x < n
  end.

Definition kont_lt (k : kont) : Prop := match k with KFind a => a < n | KLhs a => a < n | KRhs a => a < n end.

Definition pc_lt (c : pc) : Prop :=
  match c with
  | Idle => True
  | PF k f => kont_lt k /\ fpc_lt f
  | R1 l r | R2 l r _ => l < n /\ r < n
  | U1 _ x _ y _ | U2 _ x _ y _ | U3 _ x _ y _ | U4 _ x _ y _ | U5 _ x _ y _ _ | U6 _ x _ y _ =>
      x < n /\ y < n
  end.

(* the node Find is at stays connected to what it was asked for *)
Definition fpc_conn (C : nat -> nat -> Prop) (a : nat) (f : fpc) : Prop :=
  match f with
  | F1 e | F2 e => C a e
  | F3 e x => C a e /\ C a x
  | F4 e x v => C a e /\ C a x /\ C a v
  | F5 x => C a x
  end.

Definition kont_arg (k : kont) : nat := match k with KFind a | KLhs a | KRhs a => a end.

Definition pc_conn (C : nat -> nat -> Prop) (c : pc) : Prop :=
  match c with
  | Idle => True
  | PF k f => fpc_conn C (kont_arg k) f
  | R1 l r | R2 l r _ => C l r
  | U1 _ x _ y _ | U2 _ x _ y _ | U3 _ x _ y _ | U4 _ x _ y _ | U5 _ x _ y _ _ | U6 _ x _ y _ => C x y
  end.

Definition ev_conn (C : nat -> nat -> Prop) (e : pev) : Prop :=
  match e with EFind a r => C a r | EUnionFalse _ _ => True | EUnionTrue => True end.

Record pinv (s : pst) : Prop := mk_pinv {
  pi_len : length (ppar s) = n /\ length (prnk s) = n;
  pi_par : forall x, x < n -> nth x (ppar s) 0 < n /\ conn (pissued s) x (nth x (ppar s) 0);
  pi_thr : forall c prog, In (c, prog) (pthr s) ->
     pc_lt c /\ pc_conn (conn (pissued s)) c /\ Forall pop_lt prog;
  pi_ev : forall e, In e (pev_log s) -> ev_conn (conn (pissued s)) e }.

Lemma in_upd {A} (l : list A) i x y : In y (upd l i x) -> y = x \/ In y l.
Proof.
  revert i. induction l as [|a l IH]; intros [|i]; simpl; auto.
  - intros [->|H]; auto.
  - intros [->|H]; auto. apply IH in H as [|]; auto.
Qed.

Lemma cas_par_ok (C : nat -> nat -> Prop) par x old new :
  (forall z, z < n -> nth z par 0 < n /\ C z (nth z par 0)) -> length par = n ->
  new < n -> C x new ->
  length (fst (cas par x old new)) = n /\
  forall z, z < n -> nth z (fst (cas par x old new)) 0 < n /\ C z (nth z (fst (cas par x old new)) 0).
Proof.
  intros H Hl Hn HC. unfold cas. destruct (_ =? _); simpl; [|auto].
  rewrite upd_length. split; [auto|]. intros z Hz. rewrite nth_upd.
  destruct (Nat.eqb_spec z x) as [->|]; simpl; [|auto]. destruct (_ <? _); auto.
Qed.

Lemma pstep_pc_ok ps par rnk c par' rnk' c' ev :
  length par = n -> length rnk = n ->
  (forall z, z < n -> nth z par 0 < n /\ conn ps z (nth z par 0)) ->
  pc_lt c -> pc_conn (conn ps) c ->
  pstep_pc par rnk c = (par', rnk', c', ev) ->
  length par' = n /\ length rnk' = n /\
  (forall z, z < n -> nth z par' 0 < n /\ conn ps z (nth z par' 0)) /\
  pc_lt c' /\ pc_conn (conn ps) c' /\ (forall e, In e ev -> ev_conn (conn ps) e).
Proof.
  intros Hl Hlr Hpar Hlt Hc H.
  assert (Hau : forall b ok x xr y yr, x < n -> y < n -> conn ps x y ->
     pc_lt (after_update b ok x xr y yr) /\ pc_conn (conn ps) (after_update b ok x xr y yr) /\
     (forall e, In e (after_events b ok xr yr) -> ev_conn (conn ps) e)).
  { intros b ok x xr y yr Hx Hy HC. unfold after_update, after_events.
    destruct b, ok; simpl; try destruct (_ =? _); simpl; repeat split; auto; try (intros e []; easy);
      try (intros e [<-|[]]; exact I); try apply conn_refl; now apply conn_sym. }
  destruct c as [|k f|l r|l r rl|b x xr y yr|b x xr y yr|b x xr y yr|b x xr y yr|b x xr y yr rr|b x xr y yr];
    simpl in H.
  - injection H as <- <- <- <-. simpl. split; [auto|split;[auto|split;[auto|split;[auto|split;[auto|intros e []]]]]].
  - destruct Hlt as [Hk Hf]. destruct f as [el|el|el nx|el nx v|nx]; simpl in *.
    + destruct (Nat.eqb_spec (nth el par 0) el) as [He|He].
      * destruct (find_return k el) as [c1 ev1] eqn:Hfr. injection H as <- <- <- <-.
        split; [auto|split;[auto|split;[auto|]]]. split; [|split]; destruct k; simpl in *.
        -- injection Hfr as <- <-. exact I.
        -- injection Hfr as <- <-. simpl. auto.
        -- destruct (_ =? _); injection Hfr as <- <-; simpl; auto.
        -- injection Hfr as <- <-. exact I.
        -- injection Hfr as <- <-. simpl. now apply conn_sym.
        -- destruct (_ =? _); injection Hfr as <- <-; simpl; auto.
        -- injection Hfr as <- <-. intros e [<-|[]]. exact Hc.
        -- injection Hfr as <- <-. intros e [].
        -- destruct (_ =? _); injection Hfr as <- <-; [intros e [<-|[]]; exact I|intros e []].
      * injection H as <- <- <- <-. simpl. split; [auto|split;[auto|split;[auto|]]]; split; [tauto|split; [tauto|intros e []]].
    + injection H as <- <- <- <-. simpl. pose proof (Hpar el Hf) as [H1 H2].
      split; [auto|split;[auto|split;[auto|]]]; split; [tauto|split; [|intros e []]]; repeat split; auto; eapply conn_trans; eauto.
    + injection H as <- <- <- <-. simpl. destruct Hf as [Hf1 Hf2]. pose proof (Hpar nx Hf2) as [H1 H2].
      destruct Hc as [Hc1 Hc2].
      split; [auto|split;[auto|split;[auto|]]]; split; [tauto|split; [|intros e []]]; repeat split; auto; eapply conn_trans; eauto.
    + destruct Hf as (Hf1 & Hf2 & Hf3). destruct Hc as (Hc1 & Hc2 & Hc3).
      pose proof (cas_par_ok (conn ps) par el nx v Hpar Hl Hf3) as Hcas.
      destruct (cas par el nx v) as [p' ok] eqn:E. simpl in *.
      injection H as <- <- <- <-. simpl.
      destruct Hcas as [Hcl Hcp]; [eapply conn_trans; [apply conn_sym|]; eauto|].
      split; [auto|split;[auto|split;[auto|]]]; split; [tauto|split; [tauto|intros e []]].
    + injection H as <- <- <- <-. simpl. pose proof (Hpar nx Hf) as [H1 H2].
      split; [auto|split;[auto|split;[auto|]]]; split; [tauto|split; [|intros e []]]; repeat split; auto; eapply conn_trans; eauto.
  - injection H as <- <- <- <-. simpl in *. split; [auto|split;[auto|split;[auto|]]]; split; [tauto|split; [tauto|intros e []]].
  - simpl in *. destruct (_ || _); injection H as <- <- <- <-; simpl; (split; [auto|split;[auto|split;[auto|]]]; split; [tauto|split; [|intros e []]]);
      auto. now apply conn_sym.
  - simpl in *. destruct Hlt as [Hx Hy]. destruct (_ =? _); injection H as <- <- <- <-.
    + simpl. split; [auto|split;[auto|split;[auto|]]]; split; [tauto|split; [tauto|intros e []]].
    + destruct (Hau b false x xr y yr Hx Hy Hc) as (? & ? & ?). split; [auto|split;[auto|split;[auto|]]]; auto.
  - simpl in *. destruct Hlt as [Hx Hy]. destruct (_ =? _); injection H as <- <- <- <-.
    + simpl. split; [auto|split;[auto|split;[auto|]]]; split; [tauto|split; [tauto|intros e []]].
    + destruct (Hau b false x xr y yr Hx Hy Hc) as (? & ? & ?). split; [auto|split;[auto|split;[auto|]]]; auto.
  - simpl in *. destruct Hlt as [Hx Hy].
    pose proof (cas_par_ok (conn ps) par x x y Hpar Hl Hy Hc) as [Hcl Hcp].
    destruct (cas par x x y) as [p' ok] eqn:E. simpl in *.
    destruct ok; injection H as <- <- <- <-.
    + simpl. split; [auto|split;[auto|split;[auto|]]]; split; [tauto|split; [tauto|intros e []]].
    + destruct (Hau b false x xr y yr Hx Hy Hc) as (? & ? & ?). split; [auto|split;[auto|split;[auto|]]]; auto.
  - simpl in *. injection H as <- <- <- <-. simpl in *. split; [auto|split;[auto|split;[auto|]]]; split; [tauto|split; [tauto|intros e []]].
  - simpl in *. destruct Hlt as [Hx Hy].
    assert (Hrl : length (fst (cas rnk x rr yr)) = n)
      by (unfold cas; destruct (_ =? _); simpl; rewrite ?upd_length; auto).
    destruct (cas rnk x rr yr) as [r' ok] eqn:E. simpl in *.
    destruct ok; injection H as <- <- <- <-.
    + destruct (Hau b true x xr y yr Hx Hy Hc) as (? & ? & ?). split; [auto|split;[auto|split;[auto|]]]; auto.
    + simpl. split; [auto|split;[auto|split;[auto|]]]; split; [tauto|split; [tauto|intros e []]].
  - simpl in *. destruct Hlt as [Hx Hy].
    pose proof (cas_par_ok (conn ps) par x y x Hpar Hl Hx (conn_refl _ _)) as [Hcl Hcp].
    destruct (cas par x y x) as [p' ok] eqn:E. simpl in *.
    injection H as <- <- <- <-.
    destruct (Hau b false x xr y yr Hx Hy Hc) as (? & ? & ?). split; [auto|split;[auto|split;[auto|]]]; auto.
Qed.

Lemma fpc_conn_mono ps ps' a f : incl ps ps' -> fpc_conn (conn ps) a f -> fpc_conn (conn ps') a f.
Proof. intros Hi. destruct f; simpl; intuition; eapply conn_mono; eauto. Qed.

Lemma pc_conn_mono ps ps' c : incl ps ps' -> pc_conn (conn ps) c -> pc_conn (conn ps') c.
Proof.
  intros Hi. destruct c; simpl; auto; try (intros; eapply conn_mono; eauto; fail).
  now apply fpc_conn_mono.
Qed.


Lemma pinv_init progs : Forall (Forall pop_lt) progs -> pinv (pinit n progs).
Proof.
  intros Hp. constructor; simpl.
  - now rewrite seq_length, repeat_length.
  - intros x Hx. rewrite seq_nth by auto. simpl. split; [auto|apply conn_refl].
  - intros c prog Hin. apply in_map_iff in Hin as (p & E & Hin). injection E as <- <-.
    simpl. repeat split; auto. rewrite Forall_forall in Hp. auto.
  - easy.
Qed.

Lemma pinv_step s t : pinv s -> pinv (pstep s t).
Proof.
  intros Hi. pose proof Hi as [[Hl Hlr] Hpar Hthr Hev]. unfold pstep.
  destruct (nth_error (pthr s) t) as [[c prog]|] eqn:Hnt; [|auto].
  apply nth_error_In in Hnt as Hin. destruct (Hthr _ _ Hin) as (Hlt & Hcc & Hprog).
  assert (Hmain : forall par' rnk' c' ev, pstep_pc (ppar s) (prnk s) c = (par', rnk', c', ev) ->
     pinv (mk_pst par' rnk' (upd (pthr s) t (c', prog)) (pissued s) (pev_log s ++ ev))).
  { intros par' rnk' c' ev E.
    destruct (pstep_pc_ok _ _ _ _ _ _ _ _ Hl Hlr Hpar Hlt Hcc E) as (H1 & H2 & H3 & H4 & H5 & H6).
    constructor; simpl; auto.
    - intros c0 prog0 Hin0. apply in_upd in Hin0 as [E0|Hin0]; [injection E0 as -> ->; auto|auto].
    - intros e He. apply in_app_or in He as [|]; auto. }
  destruct c; try (match goal with |- context [pstep_pc ?a ?b ?c] =>
      destruct (pstep_pc a b c) as [[[par' rnk'] c'] ev] eqn:E; exact (Hmain _ _ _ _ eq_refl) end).
  destruct prog as [|o prog]; [auto|].
  assert (Hincl : incl (pissued s) (pissued s ++ ppair o)) by (intros q Hq; apply in_or_app; auto).
  inversion Hprog as [|? ? Ho Hprog']; subst.
  constructor; simpl; auto.
  - intros x Hx. destruct (Hpar x Hx). split; [auto|eapply conn_mono; eauto].
  - intros c0 prog0 Hin0. apply in_upd in Hin0 as [E0|Hin0].
    + injection E0 as -> ->. destruct o as [a b|a]; simpl in *.
      * split; [tauto|]. split; [|auto]. apply conn_sym, conn_pair, in_or_app. right. left. reflexivity.
      * split; [tauto|]. split; [apply conn_refl|auto].
    + destruct (Hthr _ _ Hin0) as (H1 & H2 & H3). split; [auto|]. split; [eapply pc_conn_mono; eauto|auto].
  - intros e He. apply Hev in He. destruct e; simpl in *; auto. eapply conn_mono; eauto.
Qed.

Lemma pinv_run sched : forall s, pinv s -> pinv (prun s sched).
Proof. induction sched as [|t sched IH]; simpl; auto using pinv_step. Qed.

End Sound.

(* ---------------- a Find or Union running alone terminates ---------------- *)

Section Alone.
Variable n : nat.

Definition fn (par : list nat) (x : nat) : nat := nth x par 0.

(* rho-shaped orbit of x: m distinct iterates, the next one repeats *)
Definition rho (f : nat -> nat) (x m : nat) : Prop :=
  (forall i j, i < j -> j < m -> Nat.iter i f x <> Nat.iter j f x) /\
  exists j, j < m /\ Nat.iter m f x = Nat.iter j f x.

Lemma iter_S_r (f : nat -> nat) k x : Nat.iter (S k) f x = Nat.iter k f (f x).
Proof. induction k; simpl in *; [auto|now rewrite IHk]. Qed.

Lemma rho_exists par x : length par = n -> (forall z, z < n -> fn par z < n) -> x < n ->
  exists m, m <= n /\ rho (fn par) x m.
Proof.
  intros Hl Hr Hx.
  assert (Hit : forall k, Nat.iter k (fn par) x < n) by (induction k; simpl; auto).
  assert (H : forall k, (exists m, m <= k /\ rho (fn par) x m) \/
     (forall i j, i < j -> j <= k -> Nat.iter i (fn par) x <> Nat.iter j (fn par) x)).
  { induction k as [|k [IH|IH]].
    - right. intros; lia.
    - destruct IH as (m & Hm & Hrho). left. exists m. split; [lia|auto].
    - destruct (existsb (fun j => Nat.iter (S k) (fn par) x =? Nat.iter j (fn par) x) (seq 0 (S k))) eqn:E.
      + left. exists (S k). split; [lia|]. split; [intros i j Hij Hj; apply IH; lia|].
        apply existsb_exists in E as (j & Hj & He). apply in_seq in Hj. apply Nat.eqb_eq in He.
        exists j. split; [lia|auto].
      + right. intros i j Hij Hj. destruct (Nat.eq_dec j (S k)) as [->|]; [|apply IH; lia].
        rewrite existsb_false in E. specialize (E i ltac:(apply in_seq; lia)).
        apply Nat.eqb_neq in E. congruence. }
  destruct (H n) as [Hd|Hd]; [exact Hd|exfalso].
  assert (NoDup (map (fun k => Nat.iter k (fn par) x) (seq 0 (S n)))) as Hnd.
  { clear - Hd. assert (Hd' : forall i j, i < S n -> j < S n -> Nat.iter i (fn par) x = Nat.iter j (fn par) x -> i = j).
    { intros i j Hi Hj E. destruct (lt_eq_lt_dec i j) as [[H|H]|H]; auto; exfalso.
      - apply (Hd i j); auto. lia.
      - apply (Hd j i); auto. lia. }
    assert (Hs : forall l, NoDup l -> (forall i, In i l -> i < S n) -> NoDup (map (fun k => Nat.iter k (fn par) x) l)).
    { induction l as [|a l IH]; intros Hnd Hl; simpl; constructor.
      - inversion Hnd; subst. intros Hin. apply in_map_iff in Hin as (b & E & Hin).
        assert (a = b) by (apply Hd'; [apply Hl; left; auto|apply Hl; right; auto|auto]). subst; auto.
      - inversion Hnd; subst. apply IH; auto. intros; apply Hl; right; auto. }
    apply Hs; [apply seq_NoDup|]. intros i Hi%in_seq. lia. }
  assert (Hincl : incl (map (fun k => Nat.iter k (fn par) x) (seq 0 (S n))) (seq 0 n)).
  { intros y Hy. apply in_map_iff in Hy as (k & <- & _). apply in_seq. specialize (Hit k). lia. }
  pose proof (NoDup_incl_length Hnd Hincl) as Hc. rewrite map_length, !seq_length in Hc. lia.
Qed.

(* one iteration of Find: halve at x, continue at the grandparent *)
Lemma rho_halve par x m : x < length par -> rho (fn par) x m -> fn par x <> x ->
  exists m', m' < m /\ rho (fn (upd par x (fn par (fn par x)))) (fn par (fn par x)) m'.
Proof.
  intros Hx [Hd (j & Hj & He)] Hne.
  set (f := fn par) in *. set (f' := fn (upd par x (f (f x)))).
  assert (Hf'x : f' x = f (f x)) by (unfold f', fn; now rewrite nth_upd_eq).
  assert (Hf' : forall z, z <> x -> f' z = f z) by (intros z Hz; unfold f', fn; now rewrite nth_upd_neq).
  assert (Hm : 2 <= m).
  { destruct m as [|[|m]]; [lia| |lia]. assert (j = 0) by lia. subst j. simpl in He. contradiction. }
  assert (Hit2 : forall i, Nat.iter i f (f (f x)) = Nat.iter (S (S i)) f x).
  { intros i. now rewrite !iter_S_r. }
  (* while the original path does not return to x the two paths agree *)
  assert (Hag : forall i, (forall k, k < i -> Nat.iter (S (S k)) f x <> x) ->
     Nat.iter i f' (f (f x)) = Nat.iter (S (S i)) f x).
  { induction i as [|i IH]; intros Hk; [reflexivity|].
    change (f' (Nat.iter i f' (f (f x))) = f (Nat.iter (S (S i)) f x)).
    rewrite IH by auto. apply Hf'. apply Hk. lia. }
  assert (Hne0 : forall k, 1 <= k -> k < m -> Nat.iter k f x <> x).
  { intros k H1 H2 E. apply (Hd 0 k); auto. }
  destruct j as [|[|j]].
  - (* x itself is on the cycle *)
    exists (m - 1). split; [lia|].
    assert (Hag' : forall i, i <= m - 2 -> Nat.iter i f' (f (f x)) = Nat.iter (S (S i)) f x).
    { intros i Hi. apply Hag. intros k Hk. apply Hne0; lia. }
    split.
    + intros a b Hab Hb. rewrite !Hag' by lia.
      destruct (Nat.eq_dec b (m - 2)) as [->|].
      * replace (S (S (m - 2))) with m by lia. rewrite He. apply Hne0; lia.
      * apply Hd; lia.
    + exists 0. split; [lia|]. replace (m - 1) with (S (m - 2)) by lia.
      change (f' (Nat.iter (m - 2) f' (f (f x))) = f (f x)).
      rewrite Hag' by lia. replace (S (S (m - 2))) with m by lia. rewrite He. simpl. exact Hf'x.
  - (* the parent of x is the entry of the cycle *)
    exists (m - 1). split; [lia|].
    assert (Hag' : forall i, i <= m - 1 -> Nat.iter i f' (f (f x)) = Nat.iter (S (S i)) f x).
    { intros i Hi. apply Hag. intros k Hk. destruct (Nat.eq_dec (S (S k)) m) as [E|].
      - rewrite E, He. simpl. auto.
      - apply Hne0; lia. }
    split.
    + intros a b Hab Hb. rewrite !Hag' by lia.
      destruct (Nat.eq_dec b (m - 2)) as [->|].
      * replace (S (S (m - 2))) with m by lia. rewrite He. intros E. symmetry in E. apply (Hd 1 (S (S a))) in E; lia.
      * apply Hd; lia.
    + exists 0. split; [lia|]. rewrite Hag' by lia. replace (S (S (m - 1))) with (S m) by lia.
      simpl Nat.iter at 2. change (Nat.iter (S m) f x) with (f (Nat.iter m f x)). rewrite He. reflexivity.
  - exists (m - 2). split; [lia|].
    assert (Hag' : forall i, i <= m - 2 -> Nat.iter i f' (f (f x)) = Nat.iter (S (S i)) f x).
    { intros i Hi. apply Hag. intros k Hk. apply Hne0; lia. }
    split.
    + intros a b Hab Hb. rewrite !Hag' by lia. apply Hd; lia.
    + exists j. split; [lia|]. rewrite !Hag' by lia. replace (S (S (m - 2))) with m by lia. exact He.
Qed.

(* k steps of one thread, none of them from Idle *)
Inductive solo : list nat -> list nat -> pc -> nat -> list nat -> list nat -> pc -> Prop :=
| solo_0 par rnk c : solo par rnk c 0 par rnk c
| solo_S par rnk c par1 rnk1 c1 ev k par' rnk' c' :
    c <> Idle -> pstep_pc par rnk c = (par1, rnk1, c1, ev) ->
    solo par1 rnk1 c1 k par' rnk' c' -> solo par rnk c (S k) par' rnk' c'.

Lemma solo_trans par rnk c k par1 rnk1 c1 k' par2 rnk2 c2 :
  solo par rnk c k par1 rnk1 c1 -> solo par1 rnk1 c1 k' par2 rnk2 c2 ->
  solo par rnk c (k + k') par2 rnk2 c2.
Proof. induction 1; intros H'; simpl; [auto|]. econstructor; eauto. Qed.

Lemma solo_1 par rnk c par1 rnk1 c1 ev : c <> Idle -> pstep_pc par rnk c = (par1, rnk1, c1, ev) ->
  solo par rnk c 1 par1 rnk1 c1.
Proof. intros. econstructor; eauto. constructor. Qed.

Definition okarr (par rnk : list nat) : Prop :=
  length par = n /\ length rnk = n /\ forall z, z < n -> fn par z < n.

Lemma solo_find k : forall m par rnk x, okarr par rnk -> x < n -> rho (fn par) x m ->
  exists j par' r, j <= 5 * m /\ solo par rnk (PF k (F1 x)) j par' rnk (fst (find_return k r)) /\
    okarr par' rnk /\ r < n /\ fn par' r = r /\ (forall z, fn par z = z -> fn par' z = z).
Proof.
  induction m as [m IH] using lt_wf_ind. intros par rnk x (Hl & Hlr & Hr) Hx Hrho.
  assert (Hm : 1 <= m) by (destruct Hrho as [_ (j & Hj & _)]; lia).
  destruct (Nat.eq_dec (fn par x) x) as [He|Hne].
  - exists 1, par, x. split; [lia|]. split.
    + destruct (find_return k x) as [c1 ev1] eqn:E. eapply solo_1; [discriminate|].
      simpl. unfold fn in He. rewrite He, Nat.eqb_refl, E. reflexivity.
    + repeat split; auto.
  - destruct (rho_halve par x m ltac:(lia) Hrho Hne) as (m' & Hm' & Hrho').
    set (g := fn par (fn par x)) in *. set (par1 := upd par x g) in *.
    assert (Hg : g < n) by (unfold g; auto).
    assert (Hok1 : okarr par1 rnk).
    { unfold par1. split; [now rewrite upd_length|split; [auto|]]. intros z Hz. unfold fn. rewrite nth_upd.
      destruct (_ && _); [auto|apply Hr; auto]. }
    destruct (IH m' Hm' par1 rnk g Hok1 Hg Hrho') as (j & par' & r & Hj & Hs & Hok' & Hr' & Hroot & Hpres).
    exists (5 + j), par', r. split; [lia|]. split; [|split; [auto|split; [auto|split;[auto|]]]].
    + eapply solo_trans; [|exact Hs].
      econstructor; [discriminate|simpl; unfold fn in Hne; apply Nat.eqb_neq in Hne; rewrite Hne; reflexivity|].
      econstructor; [discriminate|reflexivity|]. econstructor; [discriminate|reflexivity|].
      econstructor; [discriminate|simpl; unfold cas; rewrite Nat.eqb_refl; reflexivity|].
      simpl fst. change (upd par x (nth (nth x par 0) par 0)) with par1.
      eapply solo_1; [discriminate|]. simpl.
      replace (nth (nth x par 0) par1 0) with g; [reflexivity|].
      unfold par1. rewrite nth_upd_neq; [reflexivity|]. exact Hne.
    + intros z Hz. apply Hpres. destruct (Nat.eq_dec z x) as [->|Hzx]; [contradiction|].
      unfold par1, fn. rewrite nth_upd_neq; auto.
Qed.

Lemma solo_find' k par rnk x : okarr par rnk -> x < n ->
  exists j par' r, j <= 5 * n /\ solo par rnk (PF k (F1 x)) j par' rnk (fst (find_return k r)) /\
    okarr par' rnk /\ r < n /\ fn par' r = r /\ (forall z, fn par z = z -> fn par' z = z).
Proof.
  intros Hok Hx. destruct Hok as (Hl & Hlr & Hr) eqn:E.
  destruct (rho_exists par x Hl Hr Hx) as (m & Hm & Hrho).
  destruct (solo_find k m par rnk x Hok Hx Hrho) as (j & par' & r & Hj & H).
  exists j, par', r. split; [lia|auto].
Qed.

(* the rank bump finishes *)
Lemma solo_bump par rnk c : 
  match c with U1 false _ _ _ _ | U2 false _ _ _ _ | U3 false _ _ _ _ | U4 false _ _ _ _
             | U5 false _ _ _ _ _ | U6 false _ _ _ _ => True | _ => False end ->
  exists j par' rnk', j <= 6 /\ solo par rnk c j par' rnk' Idle.
Proof.
  assert (H6 : forall par rnk x xr y yr, exists j par' rnk', j <= 1 /\ solo par rnk (U6 false x xr y yr) j par' rnk' Idle).
  { intros. eexists 1, _, _. split; [lia|]. eapply solo_1; [discriminate|reflexivity]. }
  assert (H5 : forall par rnk x xr y yr r, exists j par' rnk', j <= 2 /\ solo par rnk (U5 false x xr y yr r) j par' rnk' Idle).
  { intros. destruct (cas rnk0 x r yr) as [rk ok] eqn:E. destruct ok.
    - eexists 1, _, _. split; [lia|]. eapply solo_1; [discriminate|]. simpl. rewrite E. reflexivity.
    - destruct (H6 par0 rk x xr y yr) as (j & p' & r' & Hj & Hs). exists (S j), p', r'. split; [lia|].
      econstructor; [discriminate| |exact Hs]. simpl. rewrite E. reflexivity. }
  assert (H4 : forall par rnk x xr y yr, exists j par' rnk', j <= 3 /\ solo par rnk (U4 false x xr y yr) j par' rnk' Idle).
  { intros. destruct (H5 par0 rnk0 x xr y yr (nth x rnk0 0)) as (j & p' & r' & Hj & Hs). exists (S j), p', r'.
    split; [lia|]. econstructor; [discriminate|reflexivity|exact Hs]. }
  assert (H3 : forall par rnk x xr y yr, exists j par' rnk', j <= 4 /\ solo par rnk (U3 false x xr y yr) j par' rnk' Idle).
  { intros. destruct (cas par0 x x y) as [pp ok] eqn:E. destruct ok.
    - destruct (H4 pp rnk0 x xr y yr) as (j & p' & r' & Hj & Hs). exists (S j), p', r'. split; [lia|].
      econstructor; [discriminate| |exact Hs]. simpl. rewrite E. reflexivity.
    - eexists 1, _, _. split; [lia|]. eapply solo_1; [discriminate|]. simpl. rewrite E. reflexivity. }
  assert (H2 : forall par rnk x xr y yr, exists j par' rnk', j <= 5 /\ solo par rnk (U2 false x xr y yr) j par' rnk' Idle).
  { intros. destruct (nth x rnk0 0 =? xr) eqn:E.
    - destruct (H3 par0 rnk0 x xr y yr) as (j & p' & r' & Hj & Hs). exists (S j), p', r'. split; [lia|].
      econstructor; [discriminate| |exact Hs]. simpl. rewrite E. reflexivity.
    - eexists 1, _, _. split; [lia|]. eapply solo_1; [discriminate|]. simpl. rewrite E. reflexivity. }
  assert (H1 : forall par rnk x xr y yr, exists j par' rnk', j <= 6 /\ solo par rnk (U1 false x xr y yr) j par' rnk' Idle).
  { intros. destruct (nth x par0 0 =? x) eqn:E.
    - destruct (H2 par0 rnk0 x xr y yr) as (j & p' & r' & Hj & Hs). exists (S j), p', r'. split; [lia|].
      econstructor; [discriminate| |exact Hs]. simpl. rewrite E. reflexivity.
    - eexists 1, _, _. split; [lia|]. eapply solo_1; [discriminate|]. simpl. rewrite E. reflexivity. }
  destruct c as [| | | |[]|[]|[]|[]|[]|[]]; try contradiction; intros _.
  - apply H1.
  - destruct (H2 par rnk x xr y yr) as (j & p' & r' & Hj & Hs); exists j, p', r'; split; [lia|auto].
  - destruct (H3 par rnk x xr y yr) as (j & p' & r' & Hj & Hs); exists j, p', r'; split; [lia|auto].
  - destruct (H4 par rnk x xr y yr) as (j & p' & r' & Hj & Hs); exists j, p', r'; split; [lia|auto].
  - destruct (H5 par rnk x xr y yr r) as (j & p' & r' & Hj & Hs); exists j, p', r'; split; [lia|auto].
  - destruct (H6 par rnk x xr y yr) as (j & p' & r' & Hj & Hs); exists j, p', r'; split; [lia|auto].
Qed.

(* linking two current roots with current ranks, alone *)
Lemma solo_link par rnk lhs rhs : okarr par rnk -> lhs < n -> rhs < n -> lhs <> rhs ->
  fn par lhs = lhs -> fn par rhs = rhs ->
  exists j par' rnk', j <= 13 /\ solo par rnk (R1 lhs rhs) j par' rnk' Idle.
Proof.
  intros (Hl & Hlr & Hr) Hlh Hrh Hne H1 H2. unfold fn in H1, H2.
  assert (Hgo : forall x y, x < n -> nth x par 0 = x ->
     exists j par' rnk', j <= 11 /\ solo par rnk (U1 true x (nth x rnk 0) y (nth y rnk 0)) j par' rnk' Idle).
  { intros x y Hx Hrt.
    assert (H5 : solo par rnk (U1 true x (nth x rnk 0) y (nth y rnk 0)) 5 (upd par x y) (upd rnk x (nth y rnk 0))
        (after_update true true x (nth x rnk 0) y (nth y rnk 0))).
    { econstructor; [discriminate|simpl; rewrite Hrt, Nat.eqb_refl; reflexivity|].
      econstructor; [discriminate|simpl; rewrite Nat.eqb_refl; reflexivity|].
      econstructor; [discriminate|simpl; unfold cas; rewrite Hrt, Nat.eqb_refl; reflexivity|].
      econstructor; [discriminate|reflexivity|].
      eapply solo_1; [discriminate|]. simpl. unfold cas. rewrite Nat.eqb_refl. reflexivity. }
    unfold after_update in H5. destruct (nth x rnk 0 =? nth y rnk 0).
    - edestruct (solo_bump (upd par x y) (upd rnk x (nth y rnk 0))
        (U1 false y (nth y rnk 0) y (S (nth y rnk 0)))) as (j & p' & r' & Hj & Hs); [exact I|].
      exists (5 + j), p', r'. split; [lia|]. eapply solo_trans; eauto.
    - eexists 5, _, _. split; [lia|exact H5]. }
  assert (HR : exists x y, x < n /\ nth x par 0 = x /\
      solo par rnk (R1 lhs rhs) 2 par rnk (U1 true x (nth x rnk 0) y (nth y rnk 0))).
  { destruct ((nth rhs rnk 0 <? nth lhs rnk 0) || ((nth lhs rnk 0 =? nth rhs rnk 0) && (rhs <? lhs))) eqn:E.
    - exists rhs, lhs. split; [auto|split;[auto|]]. econstructor; [discriminate|reflexivity|].
      eapply solo_1; [discriminate|]. simpl. rewrite E. reflexivity.
    - exists lhs, rhs. split; [auto|split;[auto|]]. econstructor; [discriminate|reflexivity|].
      eapply solo_1; [discriminate|]. simpl. rewrite E. reflexivity. }
  destruct HR as (x & y & Hx & Hrt & HR). destruct (Hgo x y Hx Hrt) as (j & p' & r' & Hj & Hs).
  exists (2 + j), p', r'. split; [lia|]. eapply solo_trans; eauto.
Qed.

Lemma solo_rhs par rnk lhs x : okarr par rnk -> lhs < n -> x < n -> fn par lhs = lhs ->
  exists j par' rnk', j <= 5 * n + 13 /\ solo par rnk (PF (KRhs lhs) (F1 x)) j par' rnk' Idle.
Proof.
  intros Hok Hlh Hx Hroot.
  destruct (solo_find' (KRhs lhs) par rnk x Hok Hx) as (j & par1 & r & Hj & Hs & Hok1 & Hr & Hrr & Hpres).
  simpl in Hs. destruct (Nat.eqb_spec lhs r) as [->|Hne]; simpl in Hs.
  - exists j, par1, rnk. split; [lia|auto].
  - destruct (solo_link par1 rnk lhs r Hok1 Hlh Hr Hne (Hpres _ Hroot) Hrr) as (j' & p' & r' & Hj' & Hs').
    exists (j + j'), p', r'. split; [lia|]. eapply solo_trans; eauto.
Qed.

(* a whole iteration of Union's loop, alone *)
Lemma solo_union par rnk x rhs : okarr par rnk -> x < n -> rhs < n ->
  exists j par' rnk', j <= 10 * n + 13 /\ solo par rnk (PF (KLhs rhs) (F1 x)) j par' rnk' Idle.
Proof.
  intros Hok Hx Hrhs.
  destruct (solo_find' (KLhs rhs) par rnk x Hok Hx) as (j & par1 & r & Hj & Hs & Hok1 & Hr & Hrr & Hpres).
  simpl in Hs. destruct (solo_rhs par1 rnk r rhs Hok1 Hr Hrhs Hrr) as (j' & p' & r' & Hj' & Hs').
  exists (j + j'), p', r'. split; [lia|]. eapply solo_trans; eauto.
Qed.

Lemma okarr_cas par rnk x o v : okarr par rnk -> v < n -> okarr (fst (cas par x o v)) rnk.
Proof.
  intros (Hl & Hlr & Hr) Hv. unfold cas. destruct (_ =? _); simpl; [|now split].
  split; [now rewrite upd_length|split; [auto|]]. intros z Hz. unfold fn. rewrite nth_upd.
  destruct (_ && _); [auto|apply Hr; auto].
Qed.

Lemma okarr_cas_rnk par rnk x o v : okarr par rnk -> okarr par (fst (cas rnk x o v)).
Proof.
  intros (Hl & Hlr & Hr). unfold cas. destruct (_ =? _); simpl; [|now split].
  split; [auto|split; [now rewrite upd_length|auto]].
Qed.

(* "from here, alone, at most B steps to Idle" *)
Definition fin (B : nat) (par rnk : list nat) (c : pc) : Prop :=
  exists j par' rnk', j <= B /\ solo par rnk c j par' rnk' Idle.

Lemma fin_step B par rnk c par1 rnk1 c1 ev : c <> Idle ->
  pstep_pc par rnk c = (par1, rnk1, c1, ev) -> fin B par1 rnk1 c1 -> fin (S B) par rnk c.
Proof. intros Hc E (j & p & r & Hj & Hs). exists (S j), p, r. split; [lia|]. econstructor; eauto. Qed.

Lemma fin_le B B' par rnk c : B <= B' -> fin B par rnk c -> fin B' par rnk c.
Proof. intros HB (j & p & r & Hj & Hs). exists j, p, r. split; [lia|auto]. Qed.

Lemma fin_idle B par rnk : fin B par rnk Idle.
Proof. exists 0, par, rnk. split; [lia|constructor]. Qed.

Lemma fin_after ok par rnk x xr y yr : okarr par rnk -> x < n -> y < n ->
  fin (10 * n + 13) par rnk (after_update true ok x xr y yr).
Proof.
  intros Hok Hx Hy. unfold after_update. destruct ok; [destruct (_ =? _)|].
  - apply fin_le with 6; [lia|]. apply solo_bump. exact I.
  - apply fin_idle.
  - apply solo_union; auto.
Qed.

Lemma fin_U par rnk x xr y yr : okarr par rnk -> x < n -> y < n ->
  (fin (10 * n + 14) par rnk (U6 true x xr y yr)) /\
  (forall r, fin (10 * n + 15) par rnk (U5 true x xr y yr r)) /\
  (fin (10 * n + 16) par rnk (U4 true x xr y yr)) /\
  (fin (10 * n + 17) par rnk (U3 true x xr y yr)) /\
  (fin (10 * n + 18) par rnk (U2 true x xr y yr)) /\
  (fin (10 * n + 19) par rnk (U1 true x xr y yr)).
Proof.
  intros Hok Hx Hy.
  assert (H6 : forall par rnk, okarr par rnk -> fin (10 * n + 14) par rnk (U6 true x xr y yr)).
  { intros p r Ho. replace (10 * n + 14) with (S (10 * n + 13)) by lia.
    eapply fin_step; [discriminate|reflexivity|]. apply (fin_after false _ _ x xr y yr); auto. now apply okarr_cas. }
  assert (H5 : forall par rnk, okarr par rnk -> forall r, fin (10 * n + 15) par rnk (U5 true x xr y yr r)).
  { intros p r Ho v. replace (10 * n + 15) with (S (10 * n + 14)) by lia.
    pose proof (okarr_cas_rnk p r x v yr Ho) as Ho'.
    destruct (cas r x v yr) as [r' ok] eqn:E. simpl in Ho'. destruct ok.
    - eapply fin_step; [discriminate|simpl; rewrite E; reflexivity|].
      apply fin_le with (10 * n + 13); [lia|]. exact (fin_after true p r' x xr y yr Ho' Hx Hy).
    - eapply fin_step; [discriminate|simpl; rewrite E; reflexivity|]. now apply H6. }
  assert (H4 : forall par rnk, okarr par rnk -> fin (10 * n + 16) par rnk (U4 true x xr y yr)).
  { intros p r Ho. replace (10 * n + 16) with (S (10 * n + 15)) by lia.
    eapply fin_step; [discriminate|reflexivity|]. now apply H5. }
  assert (H3 : forall par rnk, okarr par rnk -> fin (10 * n + 17) par rnk (U3 true x xr y yr)).
  { intros p r Ho. replace (10 * n + 17) with (S (10 * n + 16)) by lia.
    pose proof (okarr_cas p r x x y Ho Hy) as Ho'.
    destruct (cas p x x y) as [p' ok] eqn:E. simpl in Ho'. destruct ok.
    - eapply fin_step; [discriminate|simpl; rewrite E; reflexivity|]. now apply H4.
    - eapply fin_step; [discriminate|simpl; rewrite E; reflexivity|].
      apply fin_le with (10 * n + 13); [lia|]. exact (fin_after false p' r x xr y yr Ho' Hx Hy). }
  assert (H2 : forall par rnk, okarr par rnk -> fin (10 * n + 18) par rnk (U2 true x xr y yr)).
  { intros p r Ho. replace (10 * n + 18) with (S (10 * n + 17)) by lia.
    destruct (nth x r 0 =? xr) eqn:E.
    - eapply fin_step; [discriminate|simpl; rewrite E; reflexivity|]. now apply H3.
    - eapply fin_step; [discriminate|simpl; rewrite E; reflexivity|].
      apply fin_le with (10 * n + 13); [lia|]. exact (fin_after false p r x xr y yr Ho Hx Hy). }
  assert (H1 : forall par rnk, okarr par rnk -> fin (10 * n + 19) par rnk (U1 true x xr y yr)).
  { intros p r Ho. replace (10 * n + 19) with (S (10 * n + 18)) by lia.
    destruct (nth x p 0 =? x) eqn:E.
    - eapply fin_step; [discriminate|simpl; rewrite E; reflexivity|]. now apply H2.
    - eapply fin_step; [discriminate|simpl; rewrite E; reflexivity|].
      apply fin_le with (10 * n + 13); [lia|]. exact (fin_after false p r x xr y yr Ho Hx Hy). }
  auto 10.
Qed.

Lemma fin_any par rnk c : okarr par rnk -> pc_lt n c -> fin (15 * n + 25) par rnk c.
Proof.
  intros Hok Hc.
  assert (HR2 : forall l r rl, l < n -> r < n -> fin (10 * n + 20) par rnk (R2 l r rl) /\ True).
  { intros l r rl Hl Hr. split; [|exact I]. replace (10 * n + 20) with (S (10 * n + 19)) by lia.
    destruct ((nth r rnk 0 <? rl) || ((rl =? nth r rnk 0) && (r <? l))) eqn:E;
      (eapply fin_step; [discriminate|simpl; rewrite E; reflexivity|]; apply fin_U; auto). }
  assert (HR1 : forall par1 l r, okarr par1 rnk -> l < n -> r < n -> fin (10 * n + 21) par1 rnk (R1 l r)).
  { intros par1 l r Ho Hl Hr. replace (10 * n + 21) with (S (S (10 * n + 19))) by lia.
    eapply fin_step; [discriminate|reflexivity|].
    destruct ((nth r rnk 0 <? nth l rnk 0) || ((nth l rnk 0 =? nth r rnk 0) && (r <? l))) eqn:E;
      (eapply fin_step; [discriminate|simpl; rewrite E; reflexivity|]; apply fin_U; auto). }
  assert (HF1 : forall par1 k x, okarr par1 rnk -> kont_lt n k -> x < n -> fin (15 * n + 21) par1 rnk (PF k (F1 x))).
  { intros par1 k x Ho Hk Hx. destruct k as [a|rhs|lhs]; simpl in Hk.
    - destruct (solo_find' (KFind a) par1 rnk x Ho Hx) as (j & par2 & r & Hj & Hs & _).
      exists j, par2, rnk. split; [lia|exact Hs].
    - apply fin_le with (10 * n + 13); [lia|]. now apply solo_union.
    - destruct (solo_find' (KRhs lhs) par1 rnk x Ho Hx) as (j & par2 & r & Hj & Hs & Ho2 & Hr & _).
      simpl in Hs. destruct (lhs =? r); simpl in Hs.
      + exists j, par2, rnk. split; [lia|exact Hs].
      + destruct (HR1 par2 lhs r Ho2 Hk Hr) as (j' & p' & r' & Hj' & Hs').
        exists (j + j'), p', r'. split; [lia|]. eapply solo_trans; eauto. }
  destruct c as [|k f|l r|l r rl|b x xr y yr|b x xr y yr|b x xr y yr|b x xr y yr|b x xr y yr rr|b x xr y yr];
    simpl in Hc.
  - apply fin_idle.
  - destruct Hc as [Hk Hf]. pose proof Hok as (Hl & Hlr & Hr).
    assert (HF5 : forall par1 nx, okarr par1 rnk -> nx < n -> fin (15 * n + 22) par1 rnk (PF k (F5 nx))).
    { intros par1 nx Ho Hnx. replace (15 * n + 22) with (S (15 * n + 21)) by lia.
      eapply fin_step; [discriminate|reflexivity|]. apply HF1; auto. now apply Ho. }
    assert (HF4 : forall el nx v, nx < n -> v < n -> fin (15 * n + 23) par rnk (PF k (F4 el nx v))).
    { intros el nx v Hnx Hv. replace (15 * n + 23) with (S (15 * n + 22)) by lia.
      eapply fin_step; [discriminate|reflexivity|]. apply HF5; auto. now apply okarr_cas. }
    assert (HF3 : forall el nx, nx < n -> fin (15 * n + 24) par rnk (PF k (F3 el nx))).
    { intros el nx Hnx. replace (15 * n + 24) with (S (15 * n + 23)) by lia.
      eapply fin_step; [discriminate|reflexivity|]. apply HF4; auto. now apply Hr. }
    destruct f as [el|el|el nx|el nx v|nx]; simpl in Hf.
    + apply fin_le with (15 * n + 21); [lia|]. auto.
    + replace (15 * n + 25) with (S (15 * n + 24)) by lia.
      eapply fin_step; [discriminate|reflexivity|]. apply HF3. now apply Hr.
    + apply fin_le with (15 * n + 24); [lia|]. apply HF3. tauto.
    + apply fin_le with (15 * n + 23); [lia|]. apply HF4; tauto.
    + apply fin_le with (15 * n + 22); [lia|]. apply HF5; auto.
  - apply fin_le with (10 * n + 21); [lia|]. apply HR1; tauto.
  - apply fin_le with (10 * n + 20); [lia|]. apply HR2; tauto.
  - destruct b; [apply fin_le with (10 * n + 19); [lia|]; destruct (fin_U par rnk x xr y yr Hok (proj1 Hc) (proj2 Hc)) as (?&?&?&?&?&?); auto|apply fin_le with 6; [lia|]; now apply solo_bump].
  - destruct b; [apply fin_le with (10 * n + 18); [lia|]; destruct (fin_U par rnk x xr y yr Hok (proj1 Hc) (proj2 Hc)) as (?&?&?&?&?&?); auto|apply fin_le with 6; [lia|]; now apply solo_bump].
  - destruct b; [apply fin_le with (10 * n + 17); [lia|]; destruct (fin_U par rnk x xr y yr Hok (proj1 Hc) (proj2 Hc)) as (?&?&?&?&?&?); auto|apply fin_le with 6; [lia|]; now apply solo_bump].
  - destruct b; [apply fin_le with (10 * n + 16); [lia|]; destruct (fin_U par rnk x xr y yr Hok (proj1 Hc) (proj2 Hc)) as (?&?&?&?&?&?); auto|apply fin_le with 6; [lia|]; now apply solo_bump].
  - destruct b; [apply fin_le with (10 * n + 15); [lia|]; destruct (fin_U par rnk x xr y yr Hok (proj1 Hc) (proj2 Hc)) as (?&?&?&?&?&?); auto|apply fin_le with 6; [lia|]; now apply solo_bump].
  - destruct b; [apply fin_le with (10 * n + 14); [lia|]; destruct (fin_U par rnk x xr y yr Hok (proj1 Hc) (proj2 Hc)) as (?&?&?&?&?&?); auto|apply fin_le with 6; [lia|]; now apply solo_bump].
Qed.
End Alone.

(* ---------------- back to the machine ---------------- *)

Lemma nth_error_upd_eq {A} (l : list A) i x y : nth_error l i = Some y -> nth_error (upd l i x) i = Some x.
Proof. revert i. induction l as [|a l IH]; intros [|i]; simpl; try discriminate; auto. Qed.

Lemma solo_prun t prog : forall k par rnk c par' rnk' c', solo par rnk c k par' rnk' c' ->
  forall s, ppar s = par -> prnk s = rnk -> nth_error (pthr s) t = Some (c, prog) ->
  ppar (prun s (repeat t k)) = par' /\ prnk (prun s (repeat t k)) = rnk' /\
  nth_error (pthr (prun s (repeat t k))) t = Some (c', prog) /\
  pthr (prun s (repeat t k)) = upd (pthr s) t (c', prog).
Proof.
  intros k par rnk c par' rnk' c' Hs. induction Hs as [par rnk c|par rnk c par1 rnk1 c1 ev k par' rnk' c' Hc Hp Hs IH];
    intros s Hpar Hrnk Hth; simpl.
  - repeat split; auto. clear - Hth. revert t Hth. induction (pthr s) as [|a l IH]; intros [|t]; simpl; try discriminate.
    + now injection 1 as ->.
    + intros H. now rewrite <- IH.
  - set (s1 := mk_pst par1 rnk1 (upd (pthr s) t (c1, prog)) (pissued s) (pev_log s ++ ev)).
    assert (Hstep : pstep s t = s1).
    { unfold pstep. rewrite Hth. destruct c; try contradiction; rewrite Hpar, Hrnk, Hp; reflexivity. }
    rewrite Hstep. destruct (IH s1 eq_refl eq_refl) as (H1 & H2 & H3 & H4).
    { simpl. eapply nth_error_upd_eq; eauto. }
    repeat split; auto. rewrite H4. simpl. apply upd_upd.
Qed.
