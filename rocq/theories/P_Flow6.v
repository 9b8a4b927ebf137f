(* P_Flow6.v - proofs about push_relabel: the source set and the value of the flow. *)
From Verif Require Import SpecCut LibZ P_Mutable M_PushRelabel P_Flow P_Flow2 P_Flow3 P_Flow4 P_Flow5 P_Bfs P_MutableIO.

Definition mem (l : list nat) (v : nat) : bool := existsb (Nat.eqb v) l.
Lemma mem_In l v : mem l v = true <-> In v l.
Proof.
  unfold mem. rewrite existsb_exists. split; [intros (x & Hx & E); apply Nat.eqb_eq in E; subst; auto|]. intro H. exists v. rewrite Nat.eqb_refl. auto.
Qed.
Lemma mem_out l v : mem l v = false <-> ~ In v l.
Proof. rewrite <- mem_In. destruct (mem l v); intuition congruence. Qed.

(** * a search that records nothing *)
Section Plain.
Context (R : list (list half)) (V : valid_rows R) (ok : nat -> half -> bool) (P : nat -> Prop).
Let n := length R.
Context (HP : forall x t w r, x < n -> P x -> In (t, w, r) (nth x R []) -> ok x (t, w, r) = true -> P t).

Definition pcom (q : list nat) (tc tc0 : list bool) : Prop :=
  length tc = n /\ (forall y, In y q -> nth y tc false = true /\ y < n /\ P y) /\
  (forall u, nth u tc0 false = true -> nth u tc false = true) /\
  (forall u, nth u tc false = true -> nth u tc0 false = true \/ (u < n /\ P u)).
Definition PJ (Q0 : nat -> Prop) tc0 (q : list nat) (tc : list bool) (a : list nat) : Prop :=
  pcom q tc tc0 /\ (forall u, Q0 u \/ (nth u tc false = true /\ nth u tc0 false = false) -> ~ In u q ->
    forall h, In h (nth u R []) -> ok u h = true -> nth (fst (fst h)) tc false = true).
Definition PI (Q0 : nat -> Prop) tc0 (x : nat) (l : list half) (q : list nat) (tc : list bool) (a : list nat) : Prop :=
  pcom q tc tc0 /\ nth x tc false = true /\ x < n /\ P x /\
  (forall u, Q0 u \/ (nth u tc false = true /\ nth u tc0 false = false) -> ~ In u q -> u <> x ->
    forall h, In h (nth u R []) -> ok u h = true -> nth (fst (fst h)) tc false = true) /\
  (exists pre, nth x R [] = pre ++ l /\ forall h, In h pre -> ok x h = true -> nth (fst (fst h)) tc false = true).

(** the accumulator lists the newly touched vertices; g tells whether it does *)
Definition PA (l0 : list nat) (tc0 tc : list bool) (a : list nat) : Prop :=
  exists l, a = l0 ++ l /\ NoDup l /\ forall u, In u l <-> nth u tc false = true /\ nth u tc0 false = false.

Lemma plain_run (Q0 : nat -> Prop) tc0 q a0 : length tc0 = n -> (forall y, In y q -> nth y tc0 false = true /\ y < n /\ P y) ->
  (forall u, Q0 u -> In u q) -> length q + unt tc0 <= n ->
  exists tc a, bfs R ok (fun _ t (a : list nat) => a ++ [t]) n q tc0 a0 = Some (tc, a) /\ length tc = n /\
    (forall u, nth u tc0 false = true -> nth u tc false = true) /\
    (forall u, nth u tc false = true -> nth u tc0 false = true \/ (u < n /\ P u)) /\
    (forall u, Q0 u \/ (nth u tc false = true /\ nth u tc0 false = false) ->
      forall h, In h (nth u R []) -> ok u h = true -> nth (fst (fst h)) tc false = true) /\
    PA a0 tc0 tc a.
Proof.
  intros L0 Hq HQ0 Hf.
  set (I := fun x l q tc a => PI Q0 tc0 x l q tc a /\ PA a0 tc0 tc a). set (J := fun q tc a => PJ Q0 tc0 q tc a /\ PA a0 tc0 tc a).
  destruct (bfs_run R ok (fun _ t (a : list nat) => a ++ [t]) I J) with (fuel := n) (q := q) (tc := tc0) (a := a0) as (tc & a & X1 & [X2 X4] & X3); auto.
  - intros x h H. exact (row_tgt R V x h H).
  - intros x q1 tc a [[(C1 & C2 & C3 & C4) D] A]. destruct (C2 x (or_introl eq_refl)) as (Y1 & Y2 & Y3). split; [|auto].
    split; [split; [auto|split; [intros; apply C2; right; auto|auto]]|]. split; [auto|]. split; [auto|]. split; [auto|]. split.
    + intros u Hu Nq Nx. apply D; auto. intros [?|?]; [congruence|contradiction].
    + exists []. split; [reflexivity|intros ? []].
  - intros x h l q1 tc a Hh [((C1 & C2 & C3 & C4) & Y1 & Y2 & Y3 & D & pre & E & Pr) A]. destruct h as [[t w] r]. unfold bfs_edge. cbn [fst snd].
    pose proof (row_tgt R V x _ Hh) as Ht. cbn [fst] in Ht.
    assert (E' : nth x R [] = (pre ++ [(t, w, r)]) ++ l) by (rewrite <- app_assoc; exact E).
    destruct (nth t tc false) eqn:T; [|destruct (ok x (t, w, r)) eqn:O].
    + split; [|auto]. split; [exact (conj C1 (conj C2 (conj C3 C4)))|]. do 4 (split; [assumption|]). exists (pre ++ [(t, w, r)]). split; [auto|].
      intros h Hi. apply in_app_or in Hi. destruct Hi as [Hi|[<-|[]]]; auto.
    + set (tc' := upd tc t true). assert (TT : nth t tc' false = true) by (apply nth_upd_eq; unfold n in *; lia).
      assert (TO : forall u, u <> t -> nth u tc' false = nth u tc false) by (intros; apply nth_upd_neq; auto).
      assert (TM : forall u, nth u tc false = true -> nth u tc' false = true) by (intros u Hu; destruct (Nat.eq_dec u t) as [->|N]; [auto|rewrite TO; auto]).
      assert (T0 : nth t tc0 false = false) by (destruct (nth t tc0 false) eqn:B; [rewrite C3 in T by auto; discriminate|reflexivity]).
      assert (Pt : P t) by exact (HP x t w r Y2 Y3 Hh O).
      split; [split; [|split; [auto|split; [auto|split; [auto|split]]]]|].
      * split; [unfold tc'; rewrite upd_length; auto|]. split; [|split].
        -- intros y Hy. apply in_app_or in Hy. destruct Hy as [Hy|[<-|[]]]; [destruct (C2 y Hy) as (Z1 & Z2 & Z3); auto|auto].
        -- auto.
        -- intros u Hu. destruct (Nat.eq_dec u t) as [->|N]; [auto|]. rewrite TO in Hu by auto. auto.
      * intros u Hu Nq Nx h Hi Oh. apply TM. assert (u <> t) by (intro; subst; apply Nq; apply in_or_app; right; left; reflexivity). apply (D u); auto.
        -- rewrite TO in Hu by auto. auto.
        -- intro; apply Nq; apply in_or_app; auto.
      * exists (pre ++ [(t, w, r)]). split; [auto|]. intros h Hi Oh. apply in_app_or in Hi. destruct Hi as [Hi|[<-|[]]]; [apply TM; auto|auto].
      * destruct A as (l1 & -> & Nd & A). exists (l1 ++ [t]). split; [rewrite app_assoc; reflexivity|].
        split; [apply NoDup_app_intro; [auto|repeat constructor; intros []|intros y Hy [<-|[]]; apply A in Hy; destruct Hy; congruence]|].
        intro u. rewrite in_app_iff, A. cbn. destruct (Nat.eq_dec u t) as [->|N]; [rewrite TT; tauto|]. rewrite TO by auto. intuition congruence.
    + split; [|auto]. split; [exact (conj C1 (conj C2 (conj C3 C4)))|]. do 4 (split; [assumption|]). exists (pre ++ [(t, w, r)]). split; [auto|].
      intros h Hi Oh. apply in_app_or in Hi. destruct Hi as [Hi|[<-|[]]]; [auto|congruence].
  - intros x q1 tc a [(C & Y1 & Y2 & Y3 & D & pre & E & Pr) A]. split; [|auto]. split; [auto|]. intros u Hu Nq h Hi Oh.
    destruct (Nat.eq_dec u x) as [->|N]; [|eapply D; eauto]. apply Pr; auto. rewrite E, app_nil_r in Hi. auto.
  - split; [|exists []; rewrite app_nil_r; split; [reflexivity|split; [constructor|intro u; cbn; intuition congruence]]]. split.
    + split; [auto|]. split; [auto|]. split; auto.
    + intros u [Hu|[Hu1 Hu2]] Nq; [|congruence]. exfalso. apply Nq. auto.
  - destruct X2 as [(C1 & C2 & C3 & C4) D]. exists tc, a. split; [auto|]. split; [auto|]. split; [auto|]. split; [auto|]. split; [|auto].
    intros u Hu h Hi Oh. apply (D u Hu (fun x => x) h Hi Oh).
Qed.
End Plain.

(** the accumulator does not matter for the touched vertices *)
Lemma bfs_unit {A} R ok (f : nat -> nat -> A -> A) fuel : forall q tc a b,
  match bfs R ok f fuel q tc a, bfs R ok (fun _ t (l : list nat) => l ++ [t]) fuel q tc b with
  | Some (t1, _), Some (t2, _) => t1 = t2
  | None, None => True
  | _, _ => False
  end.
Proof.
  assert (ROW : forall x l q tc a b, fst (fold_left (bfs_edge ok f x) l (q, tc, a)) = fst (fold_left (bfs_edge ok (fun _ t (l : list nat) => l ++ [t]) x) l (q, tc, b))).
  { intros x l. induction l as [|h l IH]; intros q tc a b; cbn [fold_left]; [reflexivity|]. unfold bfs_edge at 2 4.
    destruct (nth (fst (fst h)) tc false); [apply IH|]. destruct (ok x h); apply IH. }
  induction fuel as [|k IH]; intros q tc a b; destruct q as [|x q]; cbn [bfs]; auto.
  pose proof (ROW x (nth x R []) q tc a b) as E.
  destruct (fold_left (bfs_edge ok f x) (nth x R []) (q, tc, a)) as [[q1 t1] a1].
  destruct (fold_left (bfs_edge ok (fun _ t (l : list nat) => l ++ [t]) x) (nth x R []) (q, tc, b)) as [[q2 t2] a2].
  cbn in E. injection E as -> ->. apply IH.
Qed.

Section PR.
Context (R : list (list half)) (ts : list nat) (src : nat) (V : valid_rows R).
Let n := length R.
Context (Hts : forall t, In t ts -> t < n) (Hsrc : In src ts) (Hnd : NoDup ts).

Lemma ss_sinks l : NoDup l -> (forall t, In t l -> t < n) ->
  exists q tc, fold_left (ss_sink src) l ([], repeat false n) = (q, tc) /\ length tc = n /\ length q + unt tc = n /\
    (forall t, In t q <-> In t l /\ t <> src) /\ (forall v, nth v tc false = true <-> In v q).
Proof.
  intros Nd Hl. induction l as [|t l IH] using rev_ind.
  - exists [], (repeat false n). cbn. split; [reflexivity|]. rewrite repeat_length. split; [auto|]. split; [apply unt_repeat|]. split; [tauto|].
    intro v. rewrite nth_repeat'. intuition discriminate.
  - rewrite fold_left_app. cbn [fold_left]. apply NoDup_remove in Nd. rewrite app_nil_r in Nd. destruct Nd as [Nd Nt].
    destruct (IH Nd) as (q & tc & -> & A1 & A4 & A5 & A6). { intros; apply Hl; apply in_or_app; auto. }
    unfold ss_sink. destruct (Nat.eqb_spec t src) as [->|N].
    + exists q, tc. do 3 (split; [auto|]). split; [|auto]. intro x. rewrite A5, in_app_iff. cbn. intuition congruence.
    + assert (Ht : t < n) by (apply Hl; apply in_or_app; right; left; reflexivity).
      assert (Nq : ~ In t q) by (rewrite A5; tauto). assert (Tt : nth t tc false = false) by (apply not_true_iff_false; rewrite A6; auto).
      cbn [fst snd]. exists (q ++ [t]), (upd tc t true). split; [reflexivity|]. rewrite upd_length. split; [auto|].
      split; [rewrite app_length; cbn; pose proof (unt_touch tc t ltac:(lia) Tt); lia|]. split.
      * intro x. rewrite !in_app_iff, A5. cbn. intuition congruence.
      * intro v. rewrite in_app_iff. cbn. destruct (Nat.eq_dec v t) as [->|Nv]; [rewrite nth_upd_eq by lia; tauto|]. rewrite nth_upd_neq by auto. rewrite A6. intuition congruence.
Qed.

Lemma source_set_ok K s : inv R ts src K s n ->
  exists l, source_set R ts src (p_fl s) = Some l /\ NoDup l /\ (forall v, In v l -> v < n) /\ In src l /\
    (forall t, In t ts -> t <> src -> ~ In t l) /\
    (forall u v e w r, In u l -> ~ In v l -> slot R u e = Some (v, w, r) -> flo s u e = Z.of_N w) /\
    (forall v, In v l -> v = src \/ (nth v R [] <> [] /\ nth src R [] <> [])).
Proof.
  intros [F L Q LI]. assert (Hs : src < n) by auto. unfold source_set. fold n.
  destruct (ss_sinks ts Hnd Hts) as (q & tc & -> & A1 & A2 & A3 & A4).
  set (ok := fun (x : nat) (h : half) => (0 <? resid R (p_fl s) (fst (fst h)) (snd h))%Z).
  (* an empty level, or no sink at all *)
  assert (LV : exists P : nat -> Prop, (forall y, In y q -> P y) /\ ~ P src /\ forall x t w r, x < n -> P x -> In (t, w, r) (nth x R []) -> ok x (t, w, r) = true -> P t).
  { destruct q as [|y q].
    - exists (fun _ => False). split; [intros ? []|]. split; [tauto|]. tauto.
    - assert (Hy : In y ts /\ y <> src) by (apply A3; left; reflexivity). destruct Hy as [Y1 Y2].
      assert (D0 : dist s y = 0) by (apply (l_snk _ _ _ _ _ LI); auto). pose proof (l_src _ _ _ _ _ LI) as DS.
      destruct (empty_level R (p_ds s) 1 src y Hs (Hts y Y1) ltac:(auto)) as (g & Hg & Eg).
      { intros l Hl. fold n in DS, Hl. lia. }
      exists (fun u => dist s u < g). split; [|split].
      + intros z Hz. apply A3 in Hz. rewrite (l_snk _ _ _ _ _ LI z) by tauto. lia.
      + fold n in DS, Hg. lia.
      + intros x t w r Hx Px Hh O. destruct (row_in R _ _ Hh) as [e S]. destruct (V x e t w r S) as [Ht [_ S']]. change (slot R t r = Some (x, w, e)) in S'.
        unfold ok in O. cbn [fst snd] in O. unfold resid in O. rewrite S' in O. apply Z.ltb_lt in O.
        pose proof (L t r x w e S' ltac:(lia)). pose proof (Eg t Ht). lia. }
  destruct LV as (P & P1 & P2 & P3).
  destruct (plain_run R V ok P P3 (fun u => In u q) tc q []) as (tc1 & a1 & E1 & B1 & B2 & B3 & B4 & _); auto.
  { intros y Hy. split; [apply A4; auto|]. split; [apply Hts; apply A3 in Hy; tauto|auto]. } { fold n. lia. }
  fold n in E1. pose proof (bfs_unit R ok (fun _ _ (a : unit) => a) n q tc tt []) as U. rewrite E1 in U.
  destruct (bfs R ok (fun _ _ (a : unit) => a) n q tc tt) as [[tc1' uu]|]; [|contradiction]. subst tc1'.
  assert (S1 : nth src tc1 false = false).
  { apply not_true_iff_false. intro X. apply B3 in X. destruct X as [X|[_ X]]; [apply A4 in X; apply A3 in X; tauto|contradiction]. }
  set (tc2 := upd tc1 src true).
  assert (U2 : S (unt tc2) = unt tc1) by (apply unt_touch; [fold n in B1; lia|auto]).
  assert (UL : unt tc1 <= n) by (unfold unt; transitivity (length tc1); [|unfold n; lia]; clear; induction tc1 as [|b l IH]; cbn; [lia|destruct b; cbn; lia]).
  destruct (plain_run R V (fun _ _ => true) (fun u => u = src \/ (nth u R [] <> [] /\ nth src R [] <> [])) ltac:(intros x t w r _ Px Hh _; destruct (row_in R _ _ Hh) as [e S]; destruct (V x e t w r S) as [_ [_ S']]; right; split; [intro X; rewrite X in S'; destruct r; discriminate S'|destruct Px as [<-|[_ Px]]; [intro X; rewrite X in Hh; destruct Hh|exact Px]]) (fun u => u = src) tc2 [src] [src]) as (tc3 & l & E2 & C1 & C2 & C3 & C4 & C5); auto.
  { unfold tc2. rewrite upd_length. auto. }
  { intros y [<-|[]]. split; [apply nth_upd_eq; fold n in B1; lia|auto]. }
  { intros u ->. left. reflexivity. } { cbn. fold n. lia. }
  fold n in E2. rewrite E2. exists l. split; [reflexivity|].
  destruct C5 as (l1 & -> & Nd & C5). assert (TS : nth src tc2 false = true) by (apply nth_upd_eq; fold n in B1; lia).
  assert (NB : forall u, In u ([src] ++ l1) -> nth u tc1 false = false).
  { intros u [<-|Hu]; [auto|]. apply C5 in Hu. destruct Hu as [_ Hu]. unfold tc2 in Hu. destruct (Nat.eq_dec u src) as [->|N]; [auto|]. rewrite nth_upd_neq in Hu by auto. auto. }
  split; [|split; [|split; [|split; [|split]]]].
  - cbn. constructor; [|auto]. intro X. apply C5 in X. destruct X; congruence.
  - intros v [<-|Hv]; [auto|]. apply C5 in Hv. destruct Hv as [Hv Hv2]. destruct (C3 v Hv) as [X|[X _]]; [congruence|exact X].
  - left. reflexivity.
  - intros t Ht Nt Hi. apply NB in Hi. assert (nth t tc1 false = true); [|congruence]. apply B2. apply A4. apply A3. auto.
  - intros u v e w r Hu Hv S. destruct (V u e v w r S) as [Hvn [_ S']]. change (slot R v r = Some (u, w, e)) in S'.
    assert (T3 : nth v tc3 false = true).
    { apply (C4 u) with (h := (v, w, r)); [|eapply nth_error_In; exact S|reflexivity]. destruct Hu as [<-|Hu]; [left; reflexivity|right; apply C5; auto]. }
    assert (T2 : nth v tc2 false = true).
    { destruct (nth v tc2 false) eqn:B; [reflexivity|]. exfalso. apply Hv. right. apply C5. auto. }
    assert (Nv : v <> src) by (intro; subst; apply Hv; left; reflexivity). unfold tc2 in T2. rewrite nth_upd_neq in T2 by auto.
    pose proof (NB u Hu) as Tu. pose proof (f_cap _ _ _ _ _ F u e v w r S). destruct (Z.eq_dec (flo s u e) (Z.of_N w)) as [|N]; [auto|exfalso].
    assert (nth u tc1 false = true); [|congruence]. apply (B4 v) with (h := (u, w, e)); [|eapply nth_error_In; exact S'|].
    + destruct (nth v tc false) eqn:B; [left; apply A4; auto|right; auto].
    + unfold ok. cbn [fst snd]. unfold resid. rewrite S. apply Z.ltb_lt. lia.
  - intros v [<-|Hv]; [auto|]. apply C5 in Hv. destruct Hv as [Hv Hv2]. destruct (C3 v Hv) as [X|[_ X]]; [congruence|exact X].
Qed.

Lemma total_flow_sum s : total_flow ts src s = zs ts (fun t => if t =? src then 0%Z else exc s t).
Proof.
  unfold total_flow. assert (G : forall l a, fold_left (fun a t => if t =? src then a else (a + exc s t)%Z) l a = (a + zs l (fun t => if Nat.eqb t src then 0 else exc s t))%Z).
  { induction l as [|t l IH]; intro a; cbn [fold_left zs fold_right]; [lia|]. fold (zs l (fun t => if t =? src then 0%Z else exc s t)). rewrite IH. destruct (t =? src); lia. }
  apply G.
Qed.

Lemma zs_mem (f : nat -> Z) : zs ts f = zsum n (fun u => if mem ts u then f u else 0%Z).
Proof.
  clear Hsrc. revert Hnd Hts. generalize ts as l. induction l as [|t l IH]; intros Nd Hl; cbn [zs fold_right].
  - symmetry. apply zsum_zero. reflexivity.
  - inversion Nd as [|? ? Nt Nd']. subst. fold (zs l f). rewrite IH by (auto; intros; apply Hl; right; auto).
    rewrite Z.add_comm. symmetry. apply zsum_upd1 with (a := t).
    + apply Hl. left. reflexivity.
    + intros i Hi Ni. unfold mem. cbn. destruct (Nat.eqb_spec i t); [contradiction|reflexivity].
    + unfold mem at 1. cbn. rewrite Nat.eqb_refl. cbn. rewrite (proj2 (mem_out l t)) by auto. lia.
Qed.

Lemma value_ok K s (S : nat -> bool) : inv R ts src K s n -> p_q s = [] -> S src = true -> (forall t, In t ts -> t <> src -> S t = false) ->
  total_flow ts src s = out_flow R (p_fl s) S.
Proof.
  intros [F L Q LI] Eq Ss St. assert (Hs : src < n) by auto.
  assert (NZ : forall v, v < n -> ~ In v ts -> exc s v = 0%Z).
  { intros v Hv Nv. pose proof (f_pos _ _ _ _ _ F v Hv). destruct (Z.eq_dec (exc s v) 0) as [|N]; [auto|].
    assert (In v (p_q s)); [|rewrite Eq in *; contradiction]. apply (q_ex _ _ _ _ _ _ Q); auto; lia. }
  pose proof (excess_sum R src K (p_fl s) (p_ex s) S F Hs) as E1. rewrite Ss in E1.
  pose proof (excess_sum R src K (p_fl s) (p_ex s) (fun _ => true) F Hs) as E2. cbn [andb negb] in E2.
  assert (O : out_flow R (p_fl s) (fun _ => true) = 0%Z) by (unfold out_flow; apply zsum_zero; intros; apply zsum_zero; reflexivity).
  rewrite O in E2. fold n in E1, E2.
  assert (E3 : zsum n (fun u => if S u then exc s u else 0%Z) = exc s src).
  { rewrite <- (zsum_single n src (fun u => exc s u)) by auto. apply zsum_ext. intros u Hu. destruct (Nat.eqb_spec u src) as [->|N]; [rewrite Ss; reflexivity|].
    destruct (S u) eqn:Su; [|reflexivity]. apply NZ; auto. intro. rewrite St in Su by auto. discriminate. }
  assert (E4 : zsum n (fun u => exc s u) = (exc s src + total_flow ts src s)%Z).
  { rewrite total_flow_sum, zs_mem. rewrite <- (zsum_single n src (fun u => exc s u)) by auto. rewrite <- zsum_add. apply zsum_ext. intros u Hu.
    destruct (Nat.eqb_spec u src) as [->|N]; [destruct (mem ts src); lia|]. destruct (mem ts u) eqn:M; [lia|]. rewrite NZ; [lia|auto|]. apply mem_out; auto. }
  lia.
Qed.

Lemma solve_ok pick gl i : nth_error ts i = Some src -> (forall k q, q <> [] -> In (pick k q) q) ->
  exists fuel c l, (forall fuel', fuel <= fuel' -> solve_max_flow fuel' pick gl R ts i = Some (Z.of_N c, l)) /\
    NoDup l /\ (forall v, In v l -> v < n /\ (v = src \/ (nth v R [] <> [] /\ nth src R [] <> []))) /\ In src l /\ (forall t, In t ts -> t <> src -> ~ In t l) /\
    cutw n (wt (adj R)) (mem l) = c /\
    forall S, S src = true -> (forall t, In t ts -> t <> src -> S t = false) -> (c <= cutw n (wt (adj R)) S)%N.
Proof.
  intros Ei Hp. destruct (start_ok R ts src V Hts Hsrc Hnd) as (s0 & E0 & I0).
  destruct (loop_ok R ts src V Hts Hsrc Hnd _ pick gl Hp _ _ 0 s0 I0 (le_n _) (le_n _)) as (fuel & s & H1 & I & Eq).
  destruct (source_set_ok _ s I) as (l & Es & Nd & Ln & Ls & Lt & Sat & Cn).
  assert (Ms : mem l src = true) by (apply mem_In; auto).
  assert (Mt : forall t, In t ts -> t <> src -> mem l t = false) by (intros; apply mem_out; auto).
  assert (TF : total_flow ts src s = Z.of_N (cutw n (wt (adj R)) (mem l))).
  { rewrite (value_ok _ s (mem l) I Eq Ms Mt). apply out_flow_eq. intros u v Hu Hv Su Sv e w r S. apply mem_In in Su. apply mem_out in Sv. eapply Sat; eauto. }
  exists fuel, (cutw n (wt (adj R)) (mem l)), l. split; [|split; [auto|split; [auto|split; [auto|split; [auto|split; [reflexivity|]]]]]].
  - intros fuel' Hf. unfold solve_max_flow.
    assert (B : forallb (fun t => t <? length R) ts = true) by (apply forallb_forall; intros t Ht; apply Nat.ltb_lt; apply Hts; auto).
    rewrite B, Ei, E0. cbn [negb]. rewrite (H1 fuel' Hf), Es, TF. reflexivity.
  - intros S Ss St. pose proof (value_ok _ s S I Eq Ss St) as E. rewrite TF in E.
    pose proof (out_flow_le R src _ (p_fl s) (p_ex s) S (i_f _ _ _ _ _ _ I)) as LE. fold n in LE. lia.
Qed.
End PR.
