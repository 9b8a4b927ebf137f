(* P_Core.v - proofs about batagelj_zaversnik: the bucket sort and the bucket bookkeeping. *)
From Coq Require Import Permutation.
From Verif Require Import M_Core.

Definition cnt (n : nat) (P : nat -> bool) : nat := length (filter P (seq 0 n)).

Lemma cnt_ext n P Q : (forall v, v < n -> P v = Q v) -> cnt n P = cnt n Q.
Proof. intro H. unfold cnt. f_equal. apply filter_ext_in. intros v Hv. apply in_seq in Hv. apply H. lia. Qed.
Lemma cnt_S n P : cnt (S n) P = cnt n P + (if P n then 1 else 0).
Proof. unfold cnt. rewrite seq_S, filter_app, app_length. cbn [plus filter]. destruct (P n); reflexivity. Qed.
Lemma cnt_le n P : cnt n P <= n.
Proof. induction n; [reflexivity|]. rewrite cnt_S. destruct (P n); lia. Qed.
Lemma cnt_mono n P Q : (forall v, v < n -> P v = true -> Q v = true) -> cnt n P <= cnt n Q.
Proof. induction n; intro H; [reflexivity|]. rewrite !cnt_S. specialize (IHn (fun v Hv => H v (Nat.lt_lt_succ_r _ _ Hv))). pose proof (H n ltac:(lia)). destruct (P n), (Q n); try lia; specialize (H0 eq_refl); discriminate. Qed.
Lemma cnt_lt_one n P Q u : u < n -> (forall v, v < n -> P v = true -> Q v = true) -> P u = false -> Q u = true -> cnt n P < cnt n Q.
Proof.
  induction n; intros Hu H Pu Qu; [lia|]. rewrite !cnt_S. destruct (Nat.eq_dec u n) as [->|NE].
  - rewrite Pu, Qu. pose proof (cnt_mono n P Q (fun v Hv => H v (Nat.lt_lt_succ_r _ _ Hv))). lia.
  - assert (X : cnt n P < cnt n Q) by (apply IHn; auto; lia). pose proof (H n ltac:(lia)). destruct (P n), (Q n); try lia; specialize (H0 eq_refl); discriminate.
Qed.
Lemma cnt_one n P Q u : u < n -> (forall v, v < n -> v <> u -> P v = Q v) -> P u = false -> Q u = true -> cnt n Q = S (cnt n P).
Proof.
  induction n; intros Hu H Pu Qu; [lia|]. rewrite !cnt_S. destruct (Nat.eq_dec u n) as [->|NE].
  - rewrite Pu, Qu. rewrite (cnt_ext n P Q) by (intros; apply H; lia). lia.
  - rewrite (H n) by lia. rewrite IHn; auto; lia.
Qed.
Lemma filter_perm {A} (P : A -> bool) l l' : Permutation l l' -> Permutation (filter P l) (filter P l').
Proof. induction 1; cbn [filter]; [constructor|destruct (P x); auto|destruct (P x), (P y); auto; constructor|etransitivity; eauto]. Qed.
Lemma cnt_perm n P (f : nat -> nat) : (forall p, p < n -> f p < n) -> (forall p q, p < n -> q < n -> f p = f q -> p = q) -> cnt n (fun p => P (f p)) = cnt n P.
Proof.
  intros R I. assert (PM : Permutation (map f (seq 0 n)) (seq 0 n)).
  { apply NoDup_Permutation_bis.
    - assert (G : forall l, NoDup l -> (forall x, In x l -> x < n) -> NoDup (map f l)).
      { induction l as [|x l IH]; intros ND L; cbn; [constructor|]. inversion ND; subst. constructor; [|apply IH; auto; intros; apply L; right; auto].
        intro H. apply in_map_iff in H as (y & E & Hy). apply I in E; [subst; contradiction|apply L; right; auto|apply L; left; auto]. }
      apply G; [apply seq_NoDup|]. intros x Hx. apply in_seq in Hx. lia.
    - rewrite map_length. reflexivity.
    - intros x Hx. apply in_map_iff in Hx as (p & <- & Hp). apply in_seq in Hp. apply in_seq. pose proof (R p ltac:(lia)). lia. }
  assert (PF : Permutation (filter P (map f (seq 0 n))) (filter P (seq 0 n))).
  { apply filter_perm. exact PM. }
  apply Permutation_length in PF. unfold cnt. rewrite <- PF. clear. induction (seq 0 n) as [|x l IH]; [reflexivity|]. cbn [map filter]. destruct (P (f x)); cbn [length]; congruence.
Qed.
(* a downward closed property holds for exactly the first cnt numbers *)
Lemma cnt_down n P : (forall p q, p <= q -> q < n -> P q = true -> P p = true) -> forall p, p < n -> (P p = true <-> p < cnt n P).
Proof.
  induction n; intros D p Hp; [lia|]. rewrite cnt_S. destruct (P n) eqn:Pn.
  - assert (A : forall q, q <= n -> P q = true) by (intros q Hq; apply (D q n); auto; lia).
    assert (X : cnt n P = n). { clear - A. assert (G : forall m, m <= n -> cnt m P = m) by (induction m; intro; [reflexivity|rewrite cnt_S, IHm, A by lia; lia]). apply G; lia. }
    rewrite X. split; [lia|]. intros _. apply A. lia.
  - destruct (Nat.eq_dec p n) as [->|NE].
    + pose proof (cnt_le n P). split; [congruence|lia].
    + rewrite Nat.add_0_r. apply IHn; [intros a b H1 H2; apply D; lia|lia].
Qed.

(* folding *)
Lemma fold_opt_app {S A} (f : S -> A -> option S) l1 l2 s : fold_opt f (l1 ++ l2) s = match fold_opt f l1 s with Some s' => fold_opt f l2 s' | None => None end.
Proof. revert s. induction l1 as [|a l1 IH]; intro s; cbn; [reflexivity|]. destruct (f s a); auto. Qed.

Section Sort.
Context (nb : list (list nat)).
Let n := length nb.
Definition dg0 (v : nat) : nat := length (nth v nb []).
Definition below (x : nat) : nat := cnt n (fun v => dg0 v <? x).

(* core_decomposition.h:48-56 *)
Lemma count_ok k : k <= n -> exists dg bk mx, fold_opt (kc_count nb) (seq 0 k) (repeat 0 n, [0], 0) = Some (dg, bk, mx) /\
  length dg = n /\ (forall v, v < k -> nth v dg 0 = dg0 v) /\ length bk = mx + 1 /\ (forall v, v < k -> dg0 v <= mx) /\ (forall x, nth x bk 0 = cnt k (fun v => dg0 v =? x)).
Proof.
  induction k as [|k IH]; intro L.
  - exists (repeat 0 n), [0], 0. split; [reflexivity|]. split; [apply repeat_length|]. split; [intros; lia|]. split; [reflexivity|]. split; [intros; lia|]. intros [|[|x]]; reflexivity.
  - destruct (IH ltac:(lia)) as (dg & bk & mx & E & L1 & D & L2 & M & C). rewrite seq_S, fold_opt_app, E. cbn [plus fold_opt]. unfold kc_count. fold (dg0 k).
    set (bk1 := if mx <? dg0 k then resize bk (dg0 k + 1) else bk). set (mx1 := if mx <? dg0 k then dg0 k else mx).
    assert (LB : length bk1 = mx1 + 1). { unfold bk1, mx1. destruct (Nat.ltb_spec mx (dg0 k)); [|auto]. unfold resize. rewrite app_length, repeat_length. lia. }
    assert (LM : dg0 k <= mx1 /\ mx <= mx1) by (unfold mx1; destruct (Nat.ltb_spec mx (dg0 k)); lia).
    assert (NB : forall x, nth x bk1 0 = nth x bk 0). { intro x. unfold bk1. destruct (mx <? dg0 k); [|reflexivity]. unfold resize. destruct (Nat.lt_ge_cases x (length bk)); [rewrite app_nth1 by auto; reflexivity|].
      rewrite app_nth2, (nth_overflow bk) by auto. destruct (nth_in_or_default (x - length bk) (repeat 0 (dg0 k + 1 - length bk)) 0) as [H'|H']; [apply repeat_spec in H'; auto|auto]. }
    replace ((k <? length dg) && (dg0 k <? length bk1)) with true by (symmetry; apply andb_true_iff; split; apply Nat.ltb_lt; lia).
    eexists _, _, _. split; [reflexivity|]. split; [rewrite upd_length; auto|]. split; [|split; [rewrite upd_length; auto|split]].
    + intros v Hv. destruct (Nat.eq_dec v k) as [->|]; [rewrite nth_upd_eq by lia; reflexivity|rewrite nth_upd_neq by auto; apply D; lia].
    + intros v Hv. destruct (Nat.eq_dec v k) as [->|]; [lia|]. specialize (M v). lia.
    + intro x. rewrite cnt_S. destruct (Nat.eqb_spec (dg0 k) x) as [<-|NE]; [rewrite nth_upd_eq by lia; rewrite NB, C; reflexivity|rewrite nth_upd_neq by auto; rewrite NB, C; lia].
Qed.

Lemma below_S x : below (S x) = below x + cnt n (fun v => dg0 v =? x).
Proof.
  unfold below. generalize n as k. induction k as [|k IH]; [reflexivity|]. rewrite !cnt_S, IH. destruct (Nat.ltb_spec (dg0 k) (S x)), (Nat.ltb_spec (dg0 k) x), (Nat.eqb_spec (dg0 k) x); lia.
Qed.
Lemma below_0 : below 0 = 0.
Proof. unfold below. generalize n as k. induction k as [|k IH]; [reflexivity|]. rewrite cnt_S, IH. reflexivity. Qed.

(* core_decomposition.h:58-64 *)
Lemma prefix_ok mx bk : length bk = mx + 1 -> (forall x, nth x bk 0 = cnt n (fun v => dg0 v =? x)) -> forall k, k <= mx + 1 ->
  exists bk', fold_opt kc_prefix (seq 0 k) (bk, 0) = Some (bk', below k) /\ length bk' = mx + 1 /\ (forall x, x < k -> nth x bk' 0 = below x) /\ (forall x, k <= x -> nth x bk' 0 = cnt n (fun v => dg0 v =? x)).
Proof.
  intros L C. induction k as [|k IH]; intro LK.
  - exists bk. rewrite below_0. split; [reflexivity|]. split; [auto|]. split; [intros; lia|auto].
  - destruct (IH ltac:(lia)) as (bk' & E & L1 & A & B). rewrite seq_S, fold_opt_app, E. cbn [plus fold_opt kc_prefix]. rewrite L1. destruct (Nat.ltb_spec k (mx + 1)); [|lia].
    exists (upd bk' k (below k)). split; [rewrite (B k) by auto; rewrite below_S; reflexivity|]. split; [rewrite upd_length; auto|]. split.
    + intros x Hx. destruct (Nat.eq_dec x k) as [->|]; [rewrite nth_upd_eq by lia; reflexivity|rewrite nth_upd_neq by auto; apply A; lia].
    + intros x Hx. rewrite nth_upd_neq by lia. apply B. lia.
Qed.

(* the position of a vertex: smaller degrees first, then by number *)
Definition place (v : nat) : nat := below (dg0 v) + cnt v (fun u => dg0 u =? dg0 v).
Lemma cnt_pre k m P : k <= m -> cnt k P <= cnt m P.
Proof. induction 1; [auto|]. rewrite cnt_S. lia. Qed.
Lemma below_mono x y : x <= y -> below x <= below y.
Proof. intro H. apply cnt_mono. intros v _ Hv. apply Nat.ltb_lt in Hv. apply Nat.ltb_lt. lia. Qed.
Lemma place_bound v : v < n -> below (dg0 v) <= place v < below (S (dg0 v)).
Proof.
  intro Hv. unfold place. rewrite below_S. split; [lia|]. apply Nat.add_lt_mono_l. eapply Nat.lt_le_trans; [|apply (cnt_pre (S v) n); lia]. rewrite cnt_S, Nat.eqb_refl. lia.
Qed.
Lemma place_lt v : v < n -> place v < n.
Proof. intro Hv. pose proof (place_bound v Hv). pose proof (cnt_le n (fun u => dg0 u <? S (dg0 v))). unfold below in *. lia. Qed.
Lemma place_inj u v : u < n -> v < n -> place u = place v -> u = v.
Proof.
  intros Hu Hv E. pose proof (place_bound u Hu). pose proof (place_bound v Hv).
  assert (ED : dg0 u = dg0 v).
  { destruct (Nat.lt_trichotomy (dg0 u) (dg0 v)) as [L|[L|L]]; [|auto|].
    - pose proof (below_mono (S (dg0 u)) (dg0 v) L). lia.
    - pose proof (below_mono (S (dg0 v)) (dg0 u) L). lia. }
  unfold place in E. rewrite ED in E. assert (EC : cnt u (fun x => dg0 x =? dg0 v) = cnt v (fun x => dg0 x =? dg0 v)) by lia.
  destruct (Nat.lt_trichotomy u v) as [L|[L|L]]; [|auto|].
  - pose proof (cnt_pre (S u) v (fun x => dg0 x =? dg0 v) L) as Q. rewrite cnt_S in Q. replace (dg0 u =? dg0 v) with true in Q by (symmetry; apply Nat.eqb_eq; auto). lia.
  - pose proof (cnt_pre (S v) u (fun x => dg0 x =? dg0 v) L) as Q. rewrite cnt_S, Nat.eqb_refl in Q. lia.
Qed.

(* core_decomposition.h:66-71 *)
Lemma place_ok mx bk : length bk = mx + 1 -> (forall v, v < n -> dg0 v <= mx) -> (forall x, x <= mx -> nth x bk 0 = below x) -> forall k, k <= n ->
  exists vt ps bk', fold_opt (kc_place nb) (seq 0 k) (repeat 0 n, repeat 0 n, bk) = Some (vt, ps, bk') /\ length vt = n /\ length ps = n /\ length bk' = mx + 1 /\
    (forall v, v < k -> nth v ps 0 = place v /\ nth (place v) vt 0 = v) /\ (forall x, x <= mx -> nth x bk' 0 = below x + cnt k (fun v => dg0 v =? x)).
Proof.
  intros L M B. induction k as [|k IH]; intro LK.
  - exists (repeat 0 n), (repeat 0 n), bk. split; [reflexivity|]. rewrite repeat_length. split; [auto|]. split; [auto|]. split; [auto|]. split; [intros v Hv0; exfalso; lia|]. intros x Hx. rewrite B by auto. cbn. lia.
  - destruct (IH ltac:(lia)) as (vt & ps & bk' & E & L1 & L2 & L3 & A & C). rewrite seq_S, fold_opt_app, E. cbn [plus fold_opt]. unfold kc_place. fold (dg0 k).
    pose proof (M k ltac:(lia)) as Mk. rewrite (C (dg0 k)) by auto. fold (place k). pose proof (place_lt k ltac:(lia)).
    replace ((dg0 k <? length bk') && (place k <? length vt) && (k <? length ps)) with true by (symmetry; rewrite !andb_true_iff; repeat split; apply Nat.ltb_lt; lia).
    eexists _, _, _. split; [reflexivity|]. rewrite !upd_length. split; [auto|]. split; [auto|]. split; [auto|]. split.
    + intros v Hv. destruct (Nat.eq_dec v k) as [->|NE]; [rewrite !nth_upd_eq by lia; auto|]. rewrite nth_upd_neq by auto. rewrite nth_upd_neq; [apply A; lia|]. intro E'. apply NE. apply place_inj; auto; lia.
    + intros x Hx. rewrite cnt_S. destruct (Nat.eqb_spec (dg0 k) x) as [<-|NE]; [rewrite nth_upd_eq by lia; unfold place; lia|rewrite nth_upd_neq by auto; rewrite C by auto; lia].
Qed.

(* core_decomposition.h:73-76 *)
Lemma shift_ok i : forall bk, i < length bk -> length (kc_shift i bk) = length bk /\ nth 0 (kc_shift i bk) 0 = 0 /\
  (forall x, 1 <= x <= i -> nth x (kc_shift i bk) 0 = nth (x - 1) bk 0) /\ (forall x, i < x -> nth x (kc_shift i bk) 0 = nth x bk 0).
Proof.
  induction i as [|j IH]; intros bk L; cbn [kc_shift].
  - rewrite upd_length. split; [auto|]. split; [apply nth_upd_eq; auto|]. split; [intros; lia|]. intros x Hx. apply nth_upd_neq. lia.
  - destruct (IH (upd bk (S j) (nth j bk 0))) as (A & B & C & D); [rewrite upd_length; lia|]. rewrite upd_length in A. split; [auto|]. split; [auto|]. split.
    + intros x Hx. destruct (Nat.eq_dec x (S j)) as [->|]; [rewrite D by lia; rewrite nth_upd_eq by auto; f_equal; lia|]. rewrite C by lia. apply nth_upd_neq. lia.
    + intros x Hx. rewrite D by lia. apply nth_upd_neq. lia.
Qed.

(** the bookkeeping invariant *)
Record kinv (mx : nat) (s : k_cores) : Prop := {
  ki_ld : length (k_deg s) = n; ki_lv : length (k_vert s) = n; ki_lp : length (k_pos s) = n; ki_lb : length (k_buck s) = mx + 1;
  ki_vp : forall v, v < n -> nth v (k_pos s) 0 < n /\ nth (nth v (k_pos s) 0) (k_vert s) 0 = v;
  ki_pv : forall p, p < n -> nth p (k_vert s) 0 < n /\ nth (nth p (k_vert s) 0) (k_pos s) 0 = p;
  ki_mx : forall v, v < n -> nth v (k_deg s) 0 <= mx;
  ki_sort : forall p q, p <= q -> q < n -> nth (nth p (k_vert s) 0) (k_deg s) 0 <= nth (nth q (k_vert s) 0) (k_deg s) 0;
  ki_bk : forall x, x <= mx -> nth x (k_buck s) 0 = cnt n (fun v => nth v (k_deg s) 0 <? x) }.

Lemma inj_surj (f : nat -> nat) : (forall v, v < n -> f v < n) -> (forall u v, u < n -> v < n -> f u = f v -> u = v) -> forall p, p < n -> exists v, v < n /\ f v = p.
Proof.
  intros R I p Hp. assert (IN : In p (map f (seq 0 n))); [|apply in_map_iff in IN as (v & E & Hv); apply in_seq in Hv; exists v; split; [lia|auto]].
  assert (ND : NoDup (map f (seq 0 n))).
  { assert (G : forall l, NoDup l -> (forall x, In x l -> x < n) -> NoDup (map f l)).
    { induction l as [|x l IH]; intros ND L; cbn; [constructor|]. inversion ND; subst. constructor; [|apply IH; auto; intros; apply L; right; auto].
      intro H. apply in_map_iff in H as (y & E & Hy). apply I in E; [subst; contradiction|apply L; right; auto|apply L; left; auto]. }
    apply G; [apply seq_NoDup|]. intros x Hx. apply in_seq in Hx. lia. }
  apply (NoDup_length_incl ND (l' := seq 0 n)); [rewrite map_length; reflexivity| |apply in_seq; lia].
  intros x Hx. apply in_map_iff in Hx as (v & <- & Hv). apply in_seq in Hv. apply in_seq. pose proof (R v ltac:(lia)). lia.
Qed.

Lemma init_ok : exists s mx, kc_init nb = Some s /\ kinv mx s /\ forall v, v < n -> nth v (k_deg s) 0 = dg0 v.
Proof.
  unfold kc_init. fold n. destruct (count_ok n (le_n n)) as (dg & bk & mx & -> & L1 & D & L2 & M & C).
  destruct (prefix_ok mx bk L2 C (mx + 1) (le_n _)) as (bk1 & -> & L3 & B & _).
  destruct (place_ok mx bk1 L3 M (fun x Hx => B x ltac:(lia)) n (le_n n)) as (vt & ps & bk2 & -> & L4 & L5 & L6 & P & C2).
  destruct (shift_ok mx bk2 ltac:(lia)) as (S1 & S2 & S3 & _). eexists _, mx. split; [reflexivity|]. split; [|exact D].
  constructor; cbn [k_deg k_vert k_pos k_buck]; auto; try lia.
  - intros v Hv. destruct (P v Hv) as [-> E]. split; [apply place_lt; auto|auto].
  - intros p Hp. destruct (inj_surj place place_lt place_inj p Hp) as (v & Hv & <-). destruct (P v Hv) as [E1 E2]. rewrite E2. auto.
  - intros v Hv. rewrite D by auto. apply M. auto.
  - intros p q Hpq Hq. destruct (inj_surj place place_lt place_inj p ltac:(lia)) as (u & Hu & <-). destruct (inj_surj place place_lt place_inj q Hq) as (v & Hv & <-).
    rewrite (proj2 (P u Hu)), (proj2 (P v Hv)), !D by auto. destruct (Nat.le_gt_cases (dg0 u) (dg0 v)) as [|L]; [auto|]. exfalso.
    pose proof (place_bound u Hu). pose proof (place_bound v Hv). pose proof (below_mono (S (dg0 v)) (dg0 u) L). lia.
  - intros x Hx. transitivity (below x); [|unfold below; apply cnt_ext; intros v Hv; rewrite D by auto; reflexivity].
    destruct x as [|x]; [rewrite below_0; exact S2|]. rewrite S3 by lia. replace (S x - 1) with x by lia. rewrite C2 by lia. symmetry. apply below_S.
Qed.

(** one edge *)
Lemma bucket_pos mx s : kinv mx s -> forall x p, x <= mx -> p < n -> (nth (nth p (k_vert s) 0) (k_deg s) 0 < x <-> p < nth x (k_buck s) 0).
Proof.
  intros I x p Hx Hp. rewrite (ki_bk _ _ I) by auto.
  rewrite <- (cnt_perm n (fun v => nth v (k_deg s) 0 <? x) (fun p => nth p (k_vert s) 0)).
  - rewrite <- (cnt_down n (fun p => nth (nth p (k_vert s) 0) (k_deg s) 0 <? x)); [apply iff_sym, Nat.ltb_lt| |auto].
    intros a b Hab Hb H. apply Nat.ltb_lt in H. apply Nat.ltb_lt. pose proof (ki_sort _ _ I a b Hab Hb). lia.
  - intros q Hq. apply (ki_pv _ _ I q Hq).
  - intros a b Ha Hb E. destruct (ki_pv _ _ I a Ha) as [_ A]. destruct (ki_pv _ _ I b Hb) as [_ B]. rewrite E in A. congruence.
Qed.

Lemma edge_ok mx s v t : kinv mx s -> v < n -> t < n -> nth v (k_deg s) 0 < nth t (k_deg s) 0 ->
  exists s', kc_edge v s t = Some s' /\ kinv mx s' /\
    (forall u, u <> t -> nth u (k_deg s') 0 = nth u (k_deg s) 0) /\ nth t (k_deg s') 0 = nth t (k_deg s) 0 - 1 /\
    (forall i u, u < n -> i < n -> nth (nth i (k_vert s) 0) (k_deg s) 0 < nth t (k_deg s) 0 -> (nth u (k_pos s') 0 <= i <-> nth u (k_pos s) 0 <= i)) /\
    (forall i, i < n -> nth (nth i (k_vert s) 0) (k_deg s) 0 < nth t (k_deg s) 0 -> nth i (k_vert s') 0 = nth i (k_vert s) 0).
Proof.
  intros I Hv Ht LT. unfold kc_edge. rewrite (ki_ld _ _ I). destruct (Nat.ltb_spec t n); [|lia]. cbn [negb]. rewrite (proj2 (Nat.ltb_lt _ _) LT).
  set (x := nth t (k_deg s) 0) in *. set (pt := nth t (k_pos s) 0). set (pw := nth x (k_buck s) 0). set (w := nth pw (k_vert s) 0).
  assert (Hx : x <= mx) by (apply (ki_mx _ _ I); auto). destruct (ki_vp _ _ I t Ht) as [Lpt Ept]. fold pt in Lpt, Ept.
  pose proof (bucket_pos mx s I x pt Hx Lpt) as BP. rewrite Ept in BP. fold x pw in BP. assert (LE : pw <= pt) by lia. assert (Lpw : pw < n) by lia.
  destruct (ki_pv _ _ I pw Lpw) as [Lw Ew]. fold w in Lw, Ew.
  assert (Dw : nth w (k_deg s) 0 = x).
  { pose proof (bucket_pos mx s I x pw Hx Lpw) as Q. fold w pw in Q. pose proof (ki_sort _ _ I pw pt LE Lpt) as Q2. fold w in Q2. rewrite Ept in Q2. fold x in Q2. lia. }
  replace ((x <? length (k_buck s)) && (pw <? length (k_vert s)) && (pt <? length (k_vert s)) && (w <? length (k_pos s))) with true
    by (symmetry; rewrite !andb_true_iff, (ki_lb _ _ I), (ki_lv _ _ I), (ki_lp _ _ I); repeat split; apply Nat.ltb_lt; lia).
  set (ps := if t =? w then k_pos s else upd (upd (k_pos s) t pw) w pt). set (vt := if t =? w then k_vert s else upd (upd (k_vert s) pt w) pw t).
  assert (Xpos : 0 < x) by lia.
  assert (PW : t = w -> pt = pw) by (intros E; unfold pt; rewrite E; exact Ew).
  assert (WP : pt = pw -> t = w) by (intro E; rewrite <- Ept, E; reflexivity).
  assert (LPS : length ps = n) by (unfold ps; destruct (t =? w); rewrite ?upd_length; apply (ki_lp _ _ I)).
  assert (LVT : length vt = n) by (unfold vt; destruct (t =? w); rewrite ?upd_length; apply (ki_lv _ _ I)).
  assert (PS : forall u, u < n -> nth u ps 0 = if u =? t then pw else if u =? w then pt else nth u (k_pos s) 0).
  { intros u Hu. unfold ps. destruct (Nat.eqb_spec t w) as [E|NE].
    - destruct (Nat.eqb_spec u t) as [->|]; [exact (PW E)|]. destruct (Nat.eqb_spec u w); [congruence|reflexivity].
    - destruct (Nat.eqb_spec u w) as [->|N1].
      + rewrite nth_upd_eq by (rewrite upd_length, (ki_lp _ _ I); auto). destruct (Nat.eqb_spec w t); [congruence|reflexivity].
      + rewrite nth_upd_neq by auto. destruct (Nat.eqb_spec u t) as [->|]; [rewrite nth_upd_eq by (rewrite (ki_lp _ _ I); auto); reflexivity|rewrite nth_upd_neq by auto; reflexivity]. }
  assert (VT : forall p, p < n -> nth p vt 0 = if p =? pw then t else if p =? pt then w else nth p (k_vert s) 0).
  { intros p Hp. unfold vt. destruct (Nat.eqb_spec t w) as [E|NE].
    - destruct (Nat.eqb_spec p pw) as [->|]; [symmetry; exact E|]. destruct (Nat.eqb_spec p pt); [rewrite (PW E) in *; congruence|reflexivity].
    - destruct (Nat.eqb_spec p pw) as [->|N1].
      + rewrite nth_upd_eq by (rewrite upd_length, (ki_lv _ _ I); auto). reflexivity.
      + rewrite nth_upd_neq by auto. destruct (Nat.eqb_spec p pt) as [->|]; [rewrite nth_upd_eq by (rewrite (ki_lv _ _ I); auto); reflexivity|rewrite nth_upd_neq by auto; reflexivity]. }
  set (dg := upd (k_deg s) t (x - 1)).
  assert (DT : nth t dg 0 = x - 1) by (unfold dg; apply nth_upd_eq; rewrite (ki_ld _ _ I); auto).
  assert (DN : forall u, u <> t -> nth u dg 0 = nth u (k_deg s) 0) by (intros u Hu; unfold dg; apply nth_upd_neq; auto).
  assert (EP : forall p, p < n -> nth (nth p vt 0) dg 0 = if p =? pw then x - 1 else nth (nth p (k_vert s) 0) (k_deg s) 0).
  { intros p Hp. rewrite VT by auto. destruct (Nat.eqb_spec p pw) as [->|N1]; [exact DT|]. destruct (Nat.eqb_spec p pt) as [->|N2].
    - rewrite DN by (intros E; apply N1, PW; auto). rewrite Dw, Ept. reflexivity.
    - rewrite DN; [reflexivity|]. intro E. apply N2. destruct (ki_pv _ _ I p Hp) as [_ Q]. rewrite E in Q. symmetry. exact Q. }
  assert (LOW : forall i, i < n -> nth (nth i (k_vert s) 0) (k_deg s) 0 < x -> i < pw) by (intros i Hi H'; apply (bucket_pos mx s I x i Hx Hi); exact H').
  eexists. split; [reflexivity|]. split; [|split; [exact DN|split; [exact DT|split]]].
  - constructor; cbn [k_deg k_vert k_pos k_buck].
    + unfold dg. rewrite upd_length. apply (ki_ld _ _ I).
    + exact LVT.
    + exact LPS.
    + rewrite upd_length. apply (ki_lb _ _ I).
    + intros u Hu. rewrite PS by auto. destruct (Nat.eqb_spec u t) as [->|N1]; [split; [auto|]; rewrite VT, Nat.eqb_refl by auto; reflexivity|].
      destruct (Nat.eqb_spec u w) as [->|N2].
      * split; [auto|]. rewrite VT by auto. destruct (Nat.eqb_spec pt pw) as [E|]; [apply WP; auto|]. rewrite Nat.eqb_refl. reflexivity.
      * destruct (ki_vp _ _ I u Hu) as [A B]. split; [auto|]. rewrite VT by auto. destruct (Nat.eqb_spec (nth u (k_pos s) 0) pw) as [E|]; [exfalso; apply N2; rewrite <- B, E; reflexivity|].
        destruct (Nat.eqb_spec (nth u (k_pos s) 0) pt) as [E|]; [exfalso; apply N1; rewrite <- B, E; exact Ept|exact B].
    + intros p Hp. rewrite VT by auto. destruct (Nat.eqb_spec p pw) as [->|N1]; [split; [auto|]; rewrite PS, Nat.eqb_refl by auto; reflexivity|].
      destruct (Nat.eqb_spec p pt) as [->|N2].
      * split; [auto|]. rewrite PS by auto. destruct (Nat.eqb_spec w t) as [E|]; [symmetry; apply PW; auto|]. rewrite Nat.eqb_refl. reflexivity.
      * destruct (ki_pv _ _ I p Hp) as [A B]. split; [auto|]. rewrite PS by auto. destruct (Nat.eqb_spec (nth p (k_vert s) 0) t) as [E|]; [exfalso; apply N2; rewrite <- B, E; reflexivity|].
        destruct (Nat.eqb_spec (nth p (k_vert s) 0) w) as [E|]; [exfalso; apply N1; rewrite <- B, E; exact Ew|exact B].
    + intros u Hu. destruct (Nat.eq_dec u t) as [->|]; [rewrite DT; lia|rewrite DN by auto; apply (ki_mx _ _ I); auto].
    + intros p q Hpq Hq. rewrite !EP by lia. destruct (Nat.eqb_spec p pw) as [->|N1], (Nat.eqb_spec q pw) as [->|N2]; try lia.
      * assert (~ nth (nth q (k_vert s) 0) (k_deg s) 0 < x) by (intro Q; apply LOW in Q; lia). lia.
      * assert (nth (nth p (k_vert s) 0) (k_deg s) 0 < x) by (apply (bucket_pos mx s I x p Hx); fold pw; lia). lia.
      * apply (ki_sort _ _ I); auto.
    + intros y Hy. destruct (Nat.eq_dec y x) as [->|NE].
      * rewrite nth_upd_eq by (rewrite (ki_lb _ _ I); lia). unfold pw. rewrite (ki_bk _ _ I) by auto.
        rewrite (cnt_one n (fun v0 => nth v0 (k_deg s) 0 <? x) (fun v0 => nth v0 dg 0 <? x) t); [lia|auto| | |].
        -- intros u Hu Nu. rewrite DN by auto. reflexivity.
        -- apply Nat.ltb_ge. fold x. lia.
        -- apply Nat.ltb_lt. rewrite DT. lia.
      * rewrite nth_upd_neq by auto. rewrite (ki_bk _ _ I) by auto. apply cnt_ext. intros u Hu. destruct (Nat.eq_dec u t) as [->|]; [|rewrite DN by auto; reflexivity].
        rewrite DT. fold x. destruct (Nat.ltb_spec x y), (Nat.ltb_spec (x - 1) y); lia.
  - intros i u Hu Hi Q. cbn [k_pos]. rewrite PS by auto. pose proof (LOW i Hi Q).
    destruct (Nat.eqb_spec u t) as [->|N1]; [fold pt; lia|]. destruct (Nat.eqb_spec u w) as [->|N2]; [rewrite Ew; lia|reflexivity].
  - intros i Hi Q. cbn [k_vert]. rewrite VT by auto. pose proof (LOW i Hi Q). destruct (Nat.eqb_spec i pw); [lia|]. destruct (Nat.eqb_spec i pt); [lia|reflexivity].
Qed.
End Sort.
