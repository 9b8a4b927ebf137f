(* P_Dynamic5.v - algorithms by trying all cuts, which meet the contract of the called algorithms (for counterexamples). *)
From Verif Require Import SpecCut P_Cut P_Check SpecDyn M_Dynamic P_Mutable P_MutableIO P_Mutable7 P_Dynamic P_Dynamic4 Prop_Mutable.

Definition val (G : mg) (l : list bool) : N := cutw (m_n G) (mwt G) (fun v => nth v l false).
Definition propb (l : list bool) : bool := existsb (fun b => b) l && existsb negb l.
Fixpoint argmin (f : list bool -> N) (l0 : list bool) (L : list (list bool)) : list bool :=
  match L with [] => l0 | l :: L' => argmin f (if (f l <? f l0)%N then l else l0) L' end.
Definition best_of (f : list bool -> N) (L : list (list bool)) : list bool := match L with [] => [] | l0 :: L' => argmin f l0 L' end.

Lemma argmin_ok f : forall L l0, (In (argmin f l0 L) (l0 :: L)) /\ forall l, In l (l0 :: L) -> (f (argmin f l0 L) <= f l)%N.
Proof.
  induction L as [|l L IH]; intro l0; cbn [argmin]; [split; [left; auto|intros l [<-|[]]; lia]|]. destruct (IH (if (f l <? f l0)%N then l else l0)) as [A B]. split.
  - destruct A as [A|A]; [|right; right; auto]. rewrite <- A at 1. destruct (f l <? f l0)%N; [right; left; auto|left; auto].
  - assert (X : (f (argmin f (if f l <? f l0 then l else l0) L) <= f (if f l <? f l0 then l else l0))%N) by (apply B; left; auto).
    intros x [<-|[<-|I]]; [| |apply B; right; auto]; destruct (N.ltb_spec (f l) (f l0)); lia.
Qed.
Lemma best_ok f L x : In x L -> In (best_of f L) L /\ forall l, In l L -> (f (best_of f L) <= f l)%N.
Proof. intro I. destruct L as [|l0 L]; [destruct I|]. apply argmin_ok. Qed.

Lemma bools_len n : forall l, In l (bools n) -> length l = n.
Proof. induction n as [|n IH]; intros l I; cbn in I; [destruct I as [<-|[]]; auto|]. apply in_app_iff in I as [I|I]; apply in_map_iff in I as (x & <- & I); cbn; f_equal; auto. Qed.
Definition lof (n : nat) (S : nat -> bool) : list bool := map S (seq 0 n).
Lemma lof_in n S : In (lof n S) (bools n).
Proof. assert (E : length (lof n S) = n) by (unfold lof; rewrite map_length, seq_length; auto). rewrite <- E at 2. apply bools_in. Qed.
Lemma lof_nth n S v : v < n -> nth v (lof n S) false = S v.
Proof. intro H. unfold lof. rewrite nth_indep with (d' := S 0) by (rewrite map_length, seq_length; auto). rewrite map_nth, seq_nth; auto. Qed.
Lemma lof_val G S : val G (lof (m_n G) S) = cutw (m_n G) (mwt G) S.
Proof. unfold val. apply cutw_ext. intros v Hv. apply lof_nth. auto. Qed.
Lemma propb_proper n l : length l = n -> (propb l = true <-> proper n (fun v => nth v l false)).
Proof.
  intro L. unfold propb. rewrite andb_true_iff, !existsb_exists. split.
  - intros [(a & Ia & Ea) (b & Ib & Eb)]. apply In_nth with (d := false) in Ia as (i & Hi & Ei). apply In_nth with (d := false) in Ib as (j & Hj & Ej). split; [exists i|exists j]; (split; [lia|]); [congruence|rewrite Ej; destruct b; [discriminate Eb|auto]].
  - intros [(i & Hi & Ei) (j & Hj & Ej)]. split; [exists (nth i l false)|exists (nth j l false)]; (split; [apply nth_In; lia|]); [auto|rewrite Ej; auto].
Qed.
Lemma proper_lof n S : proper n S -> propb (lof n S) = true.
Proof.
  intro P. apply (propb_proper n); [unfold lof; rewrite map_length, seq_length; auto|]. destruct P as [(i & Hi & Ei) (j & Hj & Ej)]. split; [exists i|exists j]; (split; [auto|]); rewrite lof_nth; auto.
Qed.

(** the minimum cut *)
Definition mc_set (G : mg) : list bool := best_of (val G) (filter propb (bools (m_n G))).
Definition mc (G : mg) : N := val G (mc_set G).
Lemma mc_ok G : 2 <= m_n G -> propb (mc_set G) = true /\ length (mc_set G) = m_n G /\ is_mincut (m_n G) (mwt G) (mc G).
Proof.
  intro H. assert (P0 : proper (m_n G) (fun v => v =? 0)) by (split; [exists 0|exists 1]; (split; [lia|auto])).
  assert (I0 : In (lof (m_n G) (fun v => v =? 0)) (filter propb (bools (m_n G)))) by (apply filter_In; split; [apply lof_in|apply proper_lof; auto]).
  destruct (best_ok (val G) _ _ I0) as [A B]. apply filter_In in A as [A1 A2]. split; [exact A2|]. split; [apply bools_len; exact A1|]. split.
  - exists (fun v => nth v (mc_set G) false). split; [apply propb_proper; [apply bools_len; exact A1|exact A2]|reflexivity].
  - intros S P. rewrite <- lof_val. apply B. apply filter_In. split; [apply lof_in|apply proper_lof; auto].
Qed.
Lemma mincut_unique n W c c' : is_mincut n W c -> is_mincut n W c' -> c = c'.
Proof. intros [(S & P & E) A] [(S' & P' & E') A']. specialize (A S' P'). specialize (A' S P). lia. Qed.

(** the smallest cut between s and t *)
Definition stc (G : mg) (s t : nat) : N := val G (best_of (val G) (filter (fun l => negb (Bool.eqb (nth s l false) (nth t l false))) (bools (m_n G)))).
Lemma stc_ok G s t : s < m_n G -> t < m_n G -> s <> t -> is_stcut (m_n G) (mwt G) s t (stc G s t).
Proof.
  intros Hs Ht D. set (p := fun l : list bool => negb (Bool.eqb (nth s l false) (nth t l false))).
  assert (X : forall S, S s <> S t -> In (lof (m_n G) S) (filter p (bools (m_n G)))). { intros S DS. apply filter_In. split; [apply lof_in|]. unfold p. rewrite !lof_nth by auto. rewrite (diff_neqb _ _ DS). reflexivity. }
  assert (D0 : (fun v => v =? s) s <> (fun v => v =? s) t) by (cbn; rewrite Nat.eqb_refl; destruct (Nat.eqb_spec t s); congruence).
  destruct (best_ok (val G) _ _ (X _ D0)) as [A B]. apply filter_In in A as [A1 A2]. unfold p in A2. split.
  - exists (fun v => nth v (best_of (val G) (filter p (bools (m_n G)))) false). split; [|reflexivity]. cbn beta. intro E. fold p in A2. rewrite E, Bool.eqb_reflx in A2. discriminate A2.
  - intros S DS. rewrite <- lof_val. apply B. apply X. exact DS.
Qed.

(** the cactus of one minimum cut *)
Definition two_pos (l : list bool) : list nat := map (fun b : bool => if b then 1 else 0) l.
Definition two (G : mg) : mg :=
  mk_mg [[(1, mc G, 0)]; [(0, mc G, 0)]] [mc G; mc G] [0; 0] [false; false] (two_pos (mc_set G))
    (map (fun p => filter (fun x => nth x (two_pos (mc_set G)) 0 =? p) (seq 0 (m_n G))) [0; 1]) 2 2 0 (m_n G).
Lemma two_nth l x : x < length l -> nth x (two_pos l) 0 = if nth x l false then 1 else 0.
Proof. intros _. apply (map_nth (fun b : bool => if b then 1 else 0) l false x). Qed.
Lemma two_cut c f : cutw 2 (wt (adj [[(1, c, 0)]; [(0, c, 0)]])) f = if Bool.eqb (f 0) (f 1) then 0%N else c.
Proof. unfold cutw, bsum, wt, sumN. cbn. destruct (f 0), (f 1); cbn; lia. Qed.
Lemma two_ok G : 2 <= m_n G -> symm (m_n G) (mwt G) -> cactus_ok (m_n G) (mwt G) (mc G) (two G).
Proof.
  intros H SY. destruct (mc_ok G H) as (P & L & M). assert (PP : proper (m_n G) (fun v => nth v (mc_set G) false)) by (apply propb_proper; auto).
  assert (NX : forall x, x < m_n G -> mpos (two G) x = if nth x (mc_set G) false then 1 else 0) by (intros x Hx; apply two_nth; lia).
  constructor; auto.
  - split; [|split].
    + intros v e t w r E. destruct v as [|[|[|v]]]; cbn in E; destruct e as [|[|e]]; cbn in E; try discriminate E; injection E as <- <- <-; cbn; auto.
    + split; [reflexivity|]. intros v Hv. cbn in Hv. destruct v as [|[|v]]; [| |lia]; cbn; unfold sumN; cbn; lia.
    + reflexivity.
  - split; [cbn; lia|]. intros p x Hp. cbn in Hp.
    assert (E : In x (nth p (m_cont (two G)) []) <-> x < m_n G /\ nth x (two_pos (mc_set G)) 0 = p).
    { destruct p as [|[|p]]; [| |lia]; cbn [two m_cont map nth]; rewrite filter_In, in_seq, Nat.eqb_eq; intuition lia. }
    rewrite E. cbn [two m_pos]. unfold two_pos at 2. rewrite map_length, L. reflexivity.
  - cbn. unfold two_pos. rewrite map_length. auto.
  - intros x Hx. rewrite NX by auto. cbn. destruct (nth x (mc_set G) false); lia.
  - intros _ v t w r I. left. destruct v as [|[|[|v]]]; cbn in I; [| |destruct I|destruct I]; destruct I as [I|[]]; congruence.
  - intros f Pf E. change (m_n (two G)) with 2 in *.
    assert (D : f 0 <> f 1). { destruct Pf as [(u & Hu & Eu) (v & Hv & Ev)]. destruct u as [|[|u]], v as [|[|v]]; try lia; congruence. }
    destruct (f 0) eqn:F0, (f 1) eqn:F1; try congruence.
    + assert (X : forall x, x < m_n G -> f (mpos (two G) x) = negb (nth x (mc_set G) false)) by (intros x Hx; rewrite NX by auto; destruct (nth x (mc_set G) false); auto). split.
      * destruct PP as [(u & Hu & Eu) (v & Hv & Ev)]. split; [exists v|exists u]; rewrite X by auto; [rewrite Ev|rewrite Eu]; auto.
      * erewrite cutw_ext by (exact X). rewrite cutw_compl by auto. reflexivity.
    + assert (X : forall x, x < m_n G -> f (mpos (two G) x) = nth x (mc_set G) false) by (intros x Hx; rewrite NX by auto; destruct (nth x (mc_set G) false); auto). split.
      * destruct PP as [(u & Hu & Eu) (v & Hv & Ev)]. split; [exists u|exists v]; rewrite X by auto; auto.
      * erewrite cutw_ext by (exact X). reflexivity.
  - intros a b Ha Hb D. change (m_n (two G)) with 2 in *. exists (fun x => x =? a). split; [rewrite Nat.eqb_refl; destruct (Nat.eqb_spec b a); congruence|]. unfold mwt. cbn [two m_rows]. rewrite two_cut. destruct a as [|[|a]]; [| |lia]; reflexivity.
  - intros f Pf. change (m_n (two G)) with 2 in *. unfold mwt. cbn [two m_rows]. rewrite two_cut. destruct Pf as [(u & Hu & Eu) (v & Hv & Ev)]. destruct u as [|[|u]], v as [|[|v]]; try lia; try congruence; rewrite Eu, Ev; cbn; lia.
Qed.

(** a graph that is its own cactus *)
Lemma self_ok G c : mvalid G -> length (m_part G) = m_n G -> length (m_cut G) = m_n G -> groups_exact (m_n G) (m_cont G) (m_pos G) -> m_pos G = seq 0 (m_n G) -> 2 <= m_n G ->
  is_mincut (m_n G) (mwt G) c -> (forall v t w r, In (t, w, r) (nth v (m_rows G) []) -> w = c \/ (2 * w)%N = c) -> apart c (m_n G) (mwt G) ->
  cactus_ok (m_n G) (mwt G) c G /\ full (m_n G) (mwt G) c G.
Proof.
  intros MV P Q GR E H M ED AP. assert (NX : forall x, x < m_n G -> mpos G x = x) by (intros x Hx; unfold mpos; rewrite E, seq_nth; auto). split.
  - constructor; auto.
    + rewrite E, seq_length. auto.
    + intros x Hx. rewrite NX; auto.
    + intros f Pf Ef. split; [|rewrite <- Ef; apply cutw_ext; intros x Hx; rewrite NX; auto]. destruct Pf as [(u & Hu & Eu) (v & Hv & Ev)]. split; [exists u|exists v]; rewrite NX; auto.
    + exact (proj2 M).
  - intros S PS ES. exists S. split; [auto|]. intros x Hx. rewrite NX; auto.
Qed.

Definition mg_dec : forall a b : mg, {a = b} + {a <> b}.
Proof. repeat decide equality. Defined.

(** trying all cuts, except that for G0 the cactus is G0 *)
Section Brute.
Context (G0 : mg) (c0 : N).
Definition b_all (k : nat) (G : mg) (known : option N) : N * mg := if mg_dec G G0 then (c0, G0) else (mc G, two G).
Definition b_noi (k : nat) (G : mg) : N := mc G.
Definition b_flow (k : nat) (G : mg) (s t : nat) (lim : N) : N * unit := (stc G s t, tt).
Definition b_rebuild (k : nat) (G : mg) (s : nat) (c : N) (_ : unit) : mg := if mg_dec G G0 then G0 else two G.
Definition b_ord (k : nat) (l : list nat) : list nat := l.
Definition b_run (G : mg) (ops : list dop) : option dyn := d_run b_all b_noi b_flow b_rebuild b_ord 1 (d_init b_all G) ops.

Theorem brute_answers Q : 2 <= m_n G0 -> cactus_ok (m_n G0) (mwt G0) c0 G0 -> answers (m_n G0) Q b_all b_noi b_flow b_rebuild b_ord.
Proof.
  intros H K0. assert (X : forall G, mvalid G -> m_n G = m_n G0 -> cactus_ok (m_n G0) (mwt G) (mc G) (two G)) by (intros G MV N; rewrite <- N; apply two_ok; [lia|apply mwt_symm; auto]).
  assert (Y : forall k G known, mvalid G -> m_n G = m_n G0 -> cactus_ok (m_n G0) (mwt G) (fst (b_all k G known)) (snd (b_all k G known))).
  { intros k G known MV N. unfold b_all. destruct (mg_dec G G0) as [->|]; [exact K0|apply X; auto]. }
  constructor.
  - intros k G _ MV N. apply Y; auto.
  - intros k G c _ MV N _. apply Y; auto.
  - intros k G _ MV N. rewrite <- N. apply mc_ok. lia.
  - intros k G s t lim _ MV N Hs Ht D. unfold b_flow. cbn [fst]. assert (A : is_stcut (m_n G0) (mwt G) s t (stc G s t)) by (rewrite <- N; apply stc_ok; lia). destruct (N.ltb_spec (stc G s t) lim); [exact A|]. intros S DS. pose proof (proj2 A S DS). lia.
  - intros k G s t lim c fl _ MV N _ _ _ _ _ M _. assert (c = mc G) as -> by (apply (mincut_unique (m_n G0) (mwt G)); [exact M|rewrite <- N; apply mc_ok; lia]). unfold b_rebuild. destruct (mg_dec G G0) as [->|]; [|apply X; auto].
    rewrite (mincut_unique _ _ _ _ M (k_min _ _ _ _ K0)). exact K0.
  - intros k l. apply Permutation_refl.
Qed.
End Brute.
