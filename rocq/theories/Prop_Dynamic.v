(* Prop_Dynamic.v - properties C43 and C60: the value and the cactus kept by dynamic_mincut. *)
From Verif Require Import SpecCut P_Cut P_Check SpecDyn M_Dynamic P_Mutable P_MutableIO P_Mutable7 P_Dynamic P_Dynamic4 P_Dynamic5 Prop_Mutable.

(** the same edits on the graph alone *)
Fixpoint g_run (G : mg) (ops : list dop) : option mg :=
  match ops with [] => Some G | o :: ops' => match g_step G o with Some G' => g_run G' ops' | None => None end end.

Definition is_add (o : dop) : bool := match o with DAdd _ _ _ => true | DRem _ _ => false end.

(** edges are inserted only while the minimum cut is 0 or odd, and no longer after a removal that changed it *)
Fixpoint safe (n : nat) (G : mg) (ops : list dop) : Prop :=
  match ops with
  | [] => True
  | o :: ops' =>
      (forall s t w, o = DAdd s t w -> s < n /\ t < n /\ forall c, is_mincut n (mwt G) c -> c = 0%N \/ N.odd c = true) /\
      forall G', g_step G o = Some G' ->
        (is_add o = false -> (forall c, is_mincut n (mwt G) c -> is_mincut n (mwt G') c) \/ existsb is_add ops' = false) /\ safe n G' ops'
  end.

(** inserted edges have weight, and a removal that keeps the minimum cut brings no further cut of that value *)
Fixpoint keeps (n : nat) (G : mg) (ops : list dop) : Prop :=
  match ops with
  | [] => True
  | o :: ops' =>
      (forall s t w, o = DAdd s t w -> w <> 0%N) /\
      forall G', g_step G o = Some G' ->
        (is_add o = false -> forall c, is_mincut n (mwt G) c -> is_mincut n (mwt G') c -> forall S, proper n S -> cutw n (mwt G') S = c -> cutw n (mwt G) S = c) /\ keeps n G' ops'
  end.

(** the graphs that the calls see: call 0 is initialize, call k + 1 the operation k *)
Definition at_call (G : mg) (ops : list dop) (k : nat) (G' : mg) : Prop := k <= length ops /\ g_run G (firstn k ops) = Some G'.

Lemma run_ok {FL} n all noi (flow : nat -> mg -> nat -> nat -> N -> N * FL) rebuild ord (H Q : nat -> mg -> Prop) : answers n H all noi flow rebuild ord -> forall ops k st,
  (forall j G', j < length ops -> g_run (d_g st) (firstn (S j) ops) = Some G' -> H (k + j) G') -> inv n st -> safe n (d_g st) ops -> (d_num st = 0 /\ d_low st = None) \/ existsb is_add ops = false ->
  exists st', d_run all noi flow rebuild ord k st ops = Some st' /\ inv n st' /\ g_run (d_g st) ops = Some (d_g st') /\
    (answers_full n Q all flow rebuild -> keeps n (d_g st) ops -> (forall j G', j < length ops -> g_run (d_g st) (firstn (S j) ops) = Some G' -> Q (k + j) G') ->
     full n (mwt (d_g st)) (d_cut st) (d_c st) -> full n (mwt (d_g st')) (d_cut st') (d_c st')).
Proof.
  intros A. induction ops as [|o ops IH]; intros k st HQ I SA CA; [exists st; cbn; auto|]. cbn [safe] in SA. destruct SA as [S1 S2].
  assert (HQ0 : forall G', g_step (d_g st) o = Some G' -> H k G') by (intros G' EG; rewrite <- (Nat.add_0_r k); apply HQ; [cbn; lia|cbn [firstn g_run]; rewrite EG; reflexivity]).
  assert (STEP : exists st', d_step all noi flow rebuild ord k st o = Some st' /\ inv n st' /\ g_step (d_g st) o = Some (d_g st') /\
    ((d_num st' = 0 /\ d_low st' = None) \/ existsb is_add ops = false) /\
    (answers_full n Q all flow rebuild -> keeps n (d_g st) (o :: ops) -> Q k (d_g st') -> full n (mwt (d_g st)) (d_cut st) (d_c st) -> full n (mwt (d_g st')) (d_cut st') (d_c st'))).
  { pose proof I as (MV & N & K). destruct o as [s t w|s t].
    - destruct (S1 s t w eq_refl) as (Hs & Ht & OD). destruct CA as [[NU LO]|CA]; [|discriminate CA].
      destruct (add_step n H all noi flow rebuild ord A k st s t w I HQ0 NU LO Hs Ht (OD _ (k_min _ _ _ _ K))) as (st' & E & I' & GE & NU' & LO' & FU). exists st'. cbn [d_step].
      split; [auto|]. split; [auto|]. split; [auto|]. split; [auto|]. intros FA [W0 _] QK F. apply (FU Q); auto. apply (W0 s t w eq_refl).
    - destruct (rem_step n H all noi flow rebuild ord A k st s t I HQ0) as (st' & E & I' & GE & SAME & LE & FU). exists st'. cbn [d_step].
      pose proof I' as (MV' & N' & K'). split; [auto|]. split; [auto|]. split; [auto|]. split.
      + destruct CA as [[NU LO]|CA]; [|right; exact CA]. destruct (S2 _ GE) as [[X|X] _]; [reflexivity| |right; exact X].
        left. assert (EQ : d_cut st' = d_cut st). { apply (mincut_unique n (mwt (d_g st'))); [apply (k_min _ _ _ _ K')|apply X; apply (k_min _ _ _ _ K)]. } destruct (SAME EQ) as [-> ->]. auto.
      + intros FA [_ KE] QK F. apply (FU Q); auto. intros EQ S PS ES. destruct (KE _ GE) as [X _]. apply (X eq_refl (d_cut st)); auto; [apply (k_min _ _ _ _ K)|rewrite <- EQ; apply (k_min _ _ _ _ K')]. }
  destruct STEP as (st1 & E1 & I1 & G1 & C1 & F1). destruct (S2 _ G1) as [_ S3]. assert (HQ1 : forall j G', j < length ops -> g_run (d_g st1) (firstn (S j) ops) = Some G' -> H (S k + j) G') by (intros j G' Hj HG; rewrite Nat.add_succ_comm; apply HQ; [cbn; lia|cbn [firstn g_run]; rewrite G1; exact HG]).
  destruct (IH (S k) st1 HQ1 I1 S3 C1) as (st' & E & I' & GE & FU). exists st'.
  cbn [d_run g_run]. rewrite E1, G1. split; [exact E|]. split; [exact I'|]. split; [exact GE|]. intros FA KE QK F. apply FU; auto.
  - cbn [keeps] in KE. destruct KE as [_ KE]. apply (KE _ G1).
  - intros j G' Hj HG. rewrite Nat.add_succ_comm. apply QK; [cbn; lia|]. cbn [firstn g_run]. rewrite G1. exact HG.
  - apply F1; auto. rewrite <- (Nat.add_0_r k). apply QK; [cbn; lia|]. cbn [firstn g_run]. rewrite G1. reflexivity.
Qed.

(** ** C43: the value *)

(** for every sequence of addEdge and removeEdge that inserts only while the cut is 0 or odd and the cache is empty, and algorithms
    that answer rightly on the graphs of this history: no undefined behaviour, the graph has been edited as asked, the value is
    its minimum cut and the cuts of the cactus are minimum cuts *)
Theorem C43_value_partial {FL} n all noi (flow : nat -> mg -> nat -> nat -> N -> N * FL) rebuild ord G ops : answers n (at_call G ops) all noi flow rebuild ord -> mvalid G -> m_n G = n -> safe n G ops ->
  exists st, d_run all noi flow rebuild ord 1 (d_init all G) ops = Some st /\ g_run G ops = Some (d_g st) /\
    is_mincut n (mwt (d_g st)) (d_cut st) /\ sound n (mwt (d_g st)) (d_cut st) (m_n (d_c st)) (mwt (d_c st)) (mpos (d_c st)).
Proof.
  intros A MV N SA. destruct (init_inv n (at_call G ops) all noi flow rebuild ord A G (conj (Nat.le_0_l _) eq_refl) MV N) as (I & EG & NU & LO).
  destruct (run_ok n all noi flow rebuild ord (at_call G ops) (fun _ _ => False) A ops 1 (d_init all G)) as (st & E & (_ & _ & K) & GE & _); [| |rewrite EG; exact SA|left; auto|]; auto.
  { intros j G' Hj HG. rewrite EG in HG. split; [lia|exact HG]. }
  exists st. rewrite EG in GE. split; [auto|]. split; [auto|]. split; [apply (k_min _ _ _ _ K)|apply (k_sound _ _ _ _ K)].
Qed.
Print Assumptions C43_value_partial.

Lemma removals_safe n : forall ops G, existsb is_add ops = false -> safe n G ops.
Proof.
  induction ops as [|o ops IH]; intros G H; [exact I|]. cbn in H. apply orb_false_iff in H as [H1 H2]. split; [intros s t w ->; discriminate H1|]. intros G' _. split; [intros _; right; exact H2|auto].
Qed.

(** removals alone, whatever the graph *)
Theorem C43_removals {FL} n all noi (flow : nat -> mg -> nat -> nat -> N -> N * FL) rebuild ord G ops : answers n (at_call G ops) all noi flow rebuild ord -> mvalid G -> m_n G = n -> existsb is_add ops = false ->
  exists st, d_run all noi flow rebuild ord 1 (d_init all G) ops = Some st /\ g_run G ops = Some (d_g st) /\ is_mincut n (mwt (d_g st)) (d_cut st).
Proof.
  intros A MV N H. destruct (C43_value_partial n all noi flow rebuild ord G ops A MV N (removals_safe n ops G H)) as (st & E & GE & M & _). exists st. auto.
Qed.
Print Assumptions C43_removals.

(** ** C60: the cactus shows all minimum cuts *)

(** the static algorithms answer with complete cactuses on the graphs of this history *)
Theorem C60_complete_partial {FL} n all noi (flow : nat -> mg -> nat -> nat -> N -> N * FL) rebuild ord G ops : answers n (at_call G ops) all noi flow rebuild ord ->
  answers_full n (at_call G ops) all flow rebuild -> mvalid G -> m_n G = n -> safe n G ops -> keeps n G ops ->
  exists st, d_run all noi flow rebuild ord 1 (d_init all G) ops = Some st /\ g_run G ops = Some (d_g st) /\ is_mincut n (mwt (d_g st)) (d_cut st) /\
    sound n (mwt (d_g st)) (d_cut st) (m_n (d_c st)) (mwt (d_c st)) (mpos (d_c st)) /\ complete n (mwt (d_g st)) (d_cut st) (m_n (d_c st)) (mwt (d_c st)) (mpos (d_c st)).
Proof.
  intros A FA MV N SA KE. destruct (init_inv n (at_call G ops) all noi flow rebuild ord A G (conj (Nat.le_0_l _) eq_refl) MV N) as (I & EG & NU & LO).
  assert (HQ : forall j G', j < length ops -> g_run (d_g (d_init all G)) (firstn (S j) ops) = Some G' -> at_call G ops (1 + j) G') by (intros j G' Hj HG; rewrite EG in HG; split; [lia|exact HG]).
  destruct (run_ok n all noi flow rebuild ord (at_call G ops) (at_call G ops) A ops 1 (d_init all G)) as (st & E & (_ & _ & K) & GE & FU); [| |rewrite EG; exact SA|left; auto|]; auto.
  exists st. rewrite EG in *. split; [auto|]. split; [auto|]. split; [apply (k_min _ _ _ _ K)|]. split; [apply (k_sound _ _ _ _ K)|]. apply (FU FA KE); [auto|].
  pose proof (f_all _ _ _ _ _ FA 0 G (conj (Nat.le_0_l _) eq_refl) MV N) as F0. unfold d_init. destruct (all 0 G None) as [c C]. exact F0.
Qed.
Print Assumptions C60_complete_partial.

(** ** concrete graphs *)
Definition okops (n : nat) (os : list mop) : bool :=
  (fix ok os G := match os with [] => true | o :: os' =>
     match o with NewOrder s t _ | NewEdge s t _ => (s <? n) && (t <? n) | SetWeight v e _ | DelEdge v e => (v <? n) && (e <? length (nth v (m_rows G) [])) end &&
     match run_op G o with Some G' => ok os' G' | None => false end end) os (start_construction n).

Definition is_mcb (G : mg) (c : N) (l : list bool) : bool :=
  cuts_geb (adj (m_rows G)) c && (length l =? m_n G) && propb l && (val G l =? c)%N.
Lemma is_mcb_ok G c l : is_mcb G c l = true -> is_mincut (m_n G) (mwt G) c.
Proof.
  unfold is_mcb. rewrite !andb_true_iff. intros (((A & B) & D) & E). apply Nat.eqb_eq in B. apply N.eqb_eq in E. unfold m_n in *. rewrite <- (adj_length (m_rows G)) in *. split.
  - exists (fun v => nth v l false). split; [apply propb_proper; auto|]. unfold val, m_n in E. rewrite <- (adj_length (m_rows G)) in E. exact E.
  - apply cuts_geb_ok. exact A.
Qed.

Definition apartb (G : mg) (c : N) (L : list (list bool)) : bool :=
  forallb (fun l => (val G l =? c)%N) L &&
  forallb (fun a => forallb (fun b => (a =? b) || existsb (fun l => negb (Bool.eqb (nth a l false) (nth b l false))) L) (seq 0 (m_n G))) (seq 0 (m_n G)).
Lemma apartb_ok G c L : apartb G c L = true -> apart c (m_n G) (mwt G).
Proof.
  unfold apartb. rewrite andb_true_iff, !forallb_forall. intros [A B] a b Ha Hb D. specialize (B a ltac:(apply in_seq; lia)). rewrite forallb_forall in B. specialize (B b ltac:(apply in_seq; lia)).
  apply orb_true_iff in B as [B|B]; [apply Nat.eqb_eq in B; contradiction|]. apply existsb_exists in B as (l & I & E). exists (fun v => nth v l false). split; [intro X; cbn beta in X; rewrite X, Bool.eqb_reflx in E; discriminate E|]. apply N.eqb_eq. apply (A l I).
Qed.

(* a graph that is its own cactus, as a test *)
Definition selfb (G : mg) (c : N) (l : list bool) (L : list (list bool)) : bool :=
  (length (m_part G) =? m_n G) && (length (m_cut G) =? m_n G) && (if list_eq_dec Nat.eq_dec (m_pos G) (seq 0 (m_n G)) then true else false) && (2 <=? m_n G) &&
  is_mcb G c l && forallb (forallb (fun h => (snd (fst h) =? c)%N || (2 * snd (fst h) =? c)%N)) (m_rows G) && apartb G c L.
Lemma selfb_ok G c l L : mvalid G -> groups_exact (m_n G) (m_cont G) (m_pos G) -> selfb G c l L = true -> cactus_ok (m_n G) (mwt G) c G /\ full (m_n G) (mwt G) c G /\ 2 <= m_n G.
Proof.
  intros MV GR H. unfold selfb in H. rewrite !andb_true_iff in H. destruct H as ((((((A & B) & D) & E) & F) & X) & Y). apply Nat.eqb_eq in A, B. apply Nat.leb_le in E. destruct (list_eq_dec Nat.eq_dec (m_pos G) (seq 0 (m_n G))) as [P|]; [|discriminate D].
  assert (ED : forall v t w r, In (t, w, r) (nth v (m_rows G) []) -> w = c \/ (2 * w)%N = c).
  { intros v t w r I. destruct (Nat.lt_ge_cases v (length (m_rows G))) as [Lv|Lv]; [|rewrite nth_overflow in I by auto; destruct I]. rewrite forallb_forall in X. specialize (X _ (nth_In _ [] Lv)). rewrite forallb_forall in X. specialize (X _ I). cbn in X.
    apply orb_true_iff in X as [X|X]; apply N.eqb_eq in X; auto. }
  destruct (self_ok G c MV A B GR P E (is_mcb_ok _ _ _ F) ED (apartb_ok _ _ _ Y)) as [K1 K2]. auto.
Qed.

Lemma mg_of_self n os c l L : okops n os = true -> selfb (mg_of n os) c l L = true ->
  mvalid (mg_of n os) /\ m_n (mg_of n os) = n /\ full n (mwt (mg_of n os)) c (mg_of n os) /\
  answers n (fun _ _ => True) (b_all (mg_of n os) c) b_noi b_flow (b_rebuild (mg_of n os)) b_ord.
Proof.
  intros O H. destruct (mg_of_valid n os O) as (MV & N & GR). generalize dependent (mg_of n os). intros M H MV N GR. rewrite <- N in GR. destruct (selfb_ok _ _ _ _ MV GR H) as (K & F & T). split; [auto|]. split; [auto|]. rewrite <- N. split; [exact F|]. apply brute_answers; auto.
Qed.

Lemma b_init G0 c0 : d_init (b_all G0 c0) G0 = mk_dyn G0 G0 c0 0 None [].
Proof. unfold d_init, b_all. destruct (mg_dec G0 G0); [reflexivity|contradiction]. Qed.

(* sides of cuts *)
Definition upto (n k : nat) : list bool := map (fun v => v <? k) (seq 0 n).
Definition only (n k : nat) : list bool := map (fun v => v =? k) (seq 0 n).

(** *** C43 fails for insertions into a cactus with cycles: the path leaves out a vertex where two cycles meet *)
Definition tri_ops : list mop := flat_map (fun i => [NewEdge (2*i) (2*i+1) 1%N; NewEdge (2*i) (2*i+2) 1%N; NewEdge (2*i+1) (2*i+2) 1%N]) [0;1;2;3].
Definition tri : mg := mg_of 9 tri_ops.
Definition tri_add : list dop := [DAdd 0 8 1; DAdd 0 1 1; DAdd 0 3 1; DAdd 0 5 1; DAdd 0 7 1].

(** the claim of C43: no undefined behaviour and the minimum cut as the value, for algorithms that meet their contract *)
Definition value_claim (n : nat) (ops : list dop) : Prop :=
  forall (FL : Type) all noi (flow : nat -> mg -> nat -> nat -> N -> N * FL) rebuild ord G, answers n (fun _ _ => True) all noi flow rebuild ord -> mvalid G -> m_n G = n ->
    (forall s t w, In (DAdd s t w) ops -> s < n /\ t < n) -> full n (mwt G) (d_cut (d_init all G)) (d_c (d_init all G)) ->
    exists st, d_run all noi flow rebuild ord 1 (d_init all G) ops = Some st /\ is_mincut n (mwt (d_g st)) (d_cut st).

Definition rangeb (n : nat) (ops : list dop) : bool := forallb (fun o => match o with DAdd s t _ => (s <? n) && (t <? n) | DRem _ _ => true end) ops.
Lemma refute_value n G0 c0 G ops c d : answers n (fun _ _ => True) (b_all G0 c0) b_noi b_flow (b_rebuild G0) b_ord -> mvalid G -> m_n G = n -> full n (mwt G) (d_cut (d_init (b_all G0 c0) G)) (d_c (d_init (b_all G0 c0) G)) ->
  rangeb n ops = true -> option_map (fun st => (d_cut st, cuts_geb (adj (m_rows (d_g st))) d, m_n (d_g st))) (b_run G0 c0 G ops) = Some (c, true, n) -> (c < d)%N -> ~ value_claim n ops.
Proof.
  intros A MV N F R X L H. destruct (H _ _ _ _ _ _ G A MV N) as (st & E & M); [|exact F|].
  - intros s t w I. unfold rangeb in R. rewrite forallb_forall in R. specialize (R _ I). cbv beta iota in R. rewrite andb_true_iff, !Nat.ltb_lt in R. exact R.
  - unfold b_run in X. rewrite E in X. cbn [option_map] in X. injection X as X1 X2 X3. destruct M as [(S & P & ES) _]. pose proof (cuts_geb_ok _ _ X2 S) as Y.
    rewrite adj_length in Y. unfold m_n in X3. rewrite X3 in Y. specialize (Y P). unfold mwt in ES. rewrite ES, X1 in Y. lia.
Qed.
Lemma refute_defined n G0 c0 G ops : answers n (fun _ _ => True) (b_all G0 c0) b_noi b_flow (b_rebuild G0) b_ord -> mvalid G -> m_n G = n -> full n (mwt G) (d_cut (d_init (b_all G0 c0) G)) (d_c (d_init (b_all G0 c0) G)) ->
  rangeb n ops = true -> b_run G0 c0 G ops = None -> ~ value_claim n ops.
Proof.
  intros A MV N F R X H. destruct (H _ _ _ _ _ _ G A MV N) as (st & E & M); [|exact F|].
  - intros s t w I. unfold rangeb in R. rewrite forallb_forall in R. specialize (R _ I). cbv beta iota in R. rewrite andb_true_iff, !Nat.ltb_lt in R. exact R.
  - unfold b_run in X. rewrite E in X. discriminate X.
Qed.

Lemma tri_self : mvalid tri /\ m_n tri = 9 /\ full 9 (mwt tri) 2 tri /\ answers 9 (fun _ _ => True) (b_all tri 2) b_noi b_flow (b_rebuild tri) b_ord.
Proof. apply (mg_of_self 9 tri_ops 2 (upto 9 1) (map (upto 9) [1;3;5;7] ++ map (only 9) [1;3;5;7])); vm_compute; reflexivity. Qed.

Theorem C43_insert_refuted : ~ value_claim 9 tri_add.
Proof.
  destruct tri_self as (MV & N & F & A). apply (refute_value 9 tri 2 tri tri_add 2 3 A MV N); [rewrite b_init; exact F|reflexivity|vm_compute; reflexivity|lia].
Qed.
Print Assumptions C43_insert_refuted.

(** the path found between the ends of the chain of triangles leaves out vertex 2, which every path takes *)
Example c43_path : find_path tri 0 8 2 = Some [8; 0; 6; 4].
Proof. vm_compute. reflexivity. Qed.

(** *** C43 fails after a removal: the cached cactus is searched with the value before the insertion *)
Definition pth_ops : list mop := map (fun i => NewEdge i (i+1) 1%N) [0;1;2;3;4;5].
Definition pth : mg := mg_of 7 pth_ops.
Definition pth_edit : list dop := [DRem 0 1; DAdd 0 6 1; DAdd 1 3 1; DAdd 3 0 1].

Lemma pth_self : mvalid pth /\ m_n pth = 7 /\ full 7 (mwt pth) 1 pth /\ answers 7 (fun _ _ => True) (b_all pth 1) b_noi b_flow (b_rebuild pth) b_ord.
Proof. apply (mg_of_self 7 pth_ops 1 (upto 7 1) (map (upto 7) [1;2;3;4;5;6])); vm_compute; reflexivity. Qed.

Theorem C43_cache_refuted : ~ value_claim 7 pth_edit.
Proof.
  destruct pth_self as (MV & N & F & A). apply (refute_value 7 pth 1 pth pth_edit 1 2 A MV N); [rewrite b_init; exact F|reflexivity|vm_compute; reflexivity|lia].
Qed.
Print Assumptions C43_cache_refuted.

(** *** appending a list of cached insertions to itself: the level is put into the cache twice *)
Definition hair_ops : list mop := map (fun i => NewEdge i (i+1) 1%N) [0;1;2;3;4] ++ [NewEdge 0 5 1%N; NewEdge 0 6 1%N].
Definition hair : mg := mg_of 7 hair_ops.
Definition hair_edit : list dop := [DRem 0 6; DRem 4 5; DAdd 0 6 1; DRem 0 6; DAdd 0 6 1].
Definition hair3 : mg := match g_run hair (firstn 3 hair_edit) with Some G => G | None => hair end.

Lemma hair3_ok : mvalid hair3 /\ m_n hair3 = 7 /\ groups_exact (m_n hair3) (m_cont hair3) (m_pos hair3).
Proof.
  replace hair3 with (mg_of 7 (hair_ops ++ [DelEdge 0 2; DelEdge 4 1; NewOrder 0 6 1])) by (vm_compute; reflexivity).
  destruct (mg_of_valid 7 (hair_ops ++ [DelEdge 0 2; DelEdge 4 1; NewOrder 0 6 1])) as (A & B & C); [vm_compute; reflexivity|]. rewrite B. auto.
Qed.
Lemma hair_self : mvalid hair /\ m_n hair = 7 /\ answers 7 (fun _ _ => True) (b_all hair3 1) b_noi b_flow (b_rebuild hair3) b_ord.
Proof.
  destruct (mg_of_valid 7 hair_ops) as (A & B & _); [vm_compute; reflexivity|]. split; [exact A|]. split; [exact B|]. destruct hair3_ok as (A3 & B3 & C3).
  destruct (selfb_ok hair3 1 (only 7 6) [only 7 6; only 7 5; [false;false;false;false;true;false;false]; [false;false;false;true;true;false;false]; [false;false;true;true;true;false;false]; [false;true;true;true;true;false;false]] A3 C3) as (K & _ & T); [vm_compute; reflexivity|].
  rewrite <- B3. apply brute_answers; auto.
Qed.

(* every minimum cut of G is in C, as a test *)
Definition fullb (G : mg) (c : N) (C : mg) : bool :=
  forallb (fun l => negb (propb l) || negb (val G l =? c)%N ||
    existsb (fun f => (val C f =? c)%N && forallb (fun x => Bool.eqb (nth (mpos C x) f false) (nth x l false)) (seq 0 (m_n G))) (bools (m_n C))) (bools (m_n G)).
Lemma fullb_ok G c C : fullb G c C = true -> full (m_n G) (mwt G) c C.
Proof.
  intros H S P E. unfold fullb in H. rewrite forallb_forall in H. specialize (H _ (lof_in (m_n G) S)). rewrite (proper_lof _ _ P), lof_val, E, N.eqb_refl in H. cbn [negb orb] in H.
  apply existsb_exists in H as (f & _ & H). apply andb_true_iff in H as [H1 H2]. apply N.eqb_eq in H1. exists (fun v => nth v f false). split; [exact H1|]. intros x Hx. rewrite forallb_forall in H2. specialize (H2 x ltac:(apply in_seq; lia)). apply Bool.eqb_prop in H2. rewrite lof_nth in H2 by auto. exact H2.
Qed.

Theorem C43_undefined_refuted : ~ value_claim 7 hair_edit.
Proof.
  destruct hair_self as (MV & N & A). apply (refute_defined 7 hair3 1 hair hair_edit A MV N); [|reflexivity|vm_compute; reflexivity].
  assert (B : fullb hair (d_cut (d_init (b_all hair3 1) hair)) (d_c (d_init (b_all hair3 1) hair)) = true) by (vm_compute; reflexivity). apply fullb_ok in B. rewrite N in B. exact B.
Qed.
Print Assumptions C43_undefined_refuted.

(** *** C60 fails *)
Definition complete_claim (n : nat) (o : dop) : Prop :=
  forall (FL : Type) all noi (flow : nat -> mg -> nat -> nat -> N -> N * FL) rebuild ord G st, answers n (fun _ _ => True) all noi flow rebuild ord -> mvalid G -> m_n G = n -> full n (mwt G) (d_cut (d_init all G)) (d_c (d_init all G)) ->
    d_run all noi flow rebuild ord 1 (d_init all G) [o] = Some st -> is_mincut n (mwt (d_g st)) (d_cut st) -> full n (mwt (d_g st)) (d_cut st) (d_c st).

(* a minimum cut between two vertices at the same place *)
Definition lostb (st : dyn) (l : list bool) (a b : nat) : bool :=
  propb l && (length l =? m_n (d_g st)) && (val (d_g st) l =? d_cut st)%N && (mpos (d_c st) a =? mpos (d_c st) b) && (a <? m_n (d_g st)) && (b <? m_n (d_g st)) && negb (Bool.eqb (nth a l false) (nth b l false)).
Lemma lostb_ok st l a b : lostb st l a b = true -> ~ full (m_n (d_g st)) (mwt (d_g st)) (d_cut st) (d_c st).
Proof.
  unfold lostb. rewrite !andb_true_iff, !Nat.ltb_lt, !Nat.eqb_eq, N.eqb_eq. intros ((((((A & B) & D) & E) & F) & G) & H) X.
  destruct (X (fun v => nth v l false) (proj1 (propb_proper _ _ B) A) D) as (f & _ & Y). pose proof (Y a F) as Ya. pose proof (Y b G) as Yb. rewrite E in Ya. rewrite <- Ya, <- Yb, Bool.eqb_reflx in H. discriminate H.
Qed.

(** inserting a chord into a cycle: a vertex between the ends is contracted as well *)
Definition sq_ops : list mop := [NewEdge 0 1 1; NewEdge 1 2 1; NewEdge 2 3 1; NewEdge 0 3 1].
Definition sq : mg := mg_of 4 sq_ops.
Lemma sq_self : mvalid sq /\ m_n sq = 4 /\ full 4 (mwt sq) 2 sq /\ answers 4 (fun _ _ => True) (b_all sq 2) b_noi b_flow (b_rebuild sq) b_ord.
Proof. apply (mg_of_self 4 sq_ops 2 (upto 4 1) (map (upto 4) [1;2;3])); vm_compute; reflexivity. Qed.

Lemma refute_complete n G0 c0 G o c l a b m : answers n (fun _ _ => True) (b_all G0 c0) b_noi b_flow (b_rebuild G0) b_ord -> mvalid G -> m_n G = n -> full n (mwt G) (d_cut (d_init (b_all G0 c0) G)) (d_c (d_init (b_all G0 c0) G)) ->
  option_map (fun st => (d_cut st, is_mcb (d_g st) (d_cut st) l, lostb st m a b, m_n (d_g st))) (b_run G0 c0 G [o]) = Some (c, true, true, n) -> ~ complete_claim n o.
Proof.
  intros A MV N F X H. unfold b_run in X. destruct (d_run _ _ _ _ _ 1 _ [o]) as [st|] eqn:E; [|discriminate X]. cbn [option_map] in X. injection X as X1 X2 X3 X4.
  apply (lostb_ok st m a b X3). rewrite X4. apply (H _ _ _ _ _ _ G st A MV N F E). rewrite <- X4. apply (is_mcb_ok _ _ _ X2).
Qed.

Theorem C60_chord_refuted : ~ complete_claim 4 (DAdd 0 2 1).
Proof.
  destruct sq_self as (MV & N & F & A). apply (refute_complete 4 sq 2 sq (DAdd 0 2 1) 2 (only 4 1) 0 1 (only 4 1) A MV N); [rewrite b_init; exact F|vm_compute; reflexivity].
Qed.
Print Assumptions C60_chord_refuted.

(** removing an edge inside one vertex of the cactus: cuts that come down to the minimum are not added *)
Definition rm_ops : list mop := [NewEdge 0 1 1; NewEdge 1 2 2; NewEdge 0 2 1; NewEdge 0 3 1; NewEdge 1 3 1].
Definition rm : mg := mg_of 4 rm_ops.
Lemma rm_ok : mvalid rm /\ m_n rm = 4.
Proof. destruct (mg_of_valid 4 rm_ops) as (MV & N & _); [vm_compute; reflexivity|]. exact (conj MV N). Qed.
Theorem C60_removal_refuted : ~ complete_claim 4 (DRem 0 1).
Proof.
  destruct sq_self as (_ & _ & _ & A). destruct rm_ok as (MV & N).
  apply (refute_complete 4 sq 2 rm (DRem 0 1) 2 (only 4 0) 0 1 (only 4 0) A MV N); [|vm_compute; reflexivity].
  assert (B : fullb rm (d_cut (d_init (b_all sq 2) rm)) (d_c (d_init (b_all sq 2) rm)) = true) by (vm_compute; reflexivity). apply fullb_ok in B.  rewrite N in B. exact B.
Qed.
Print Assumptions C60_removal_refuted.

(** inserting an edge of weight 0 *)
Theorem C60_zero_refuted : ~ complete_claim 7 (DAdd 0 1 0).
Proof.
  destruct pth_self as (MV & N & F & A). apply (refute_complete 7 pth 1 pth (DAdd 0 1 0) 1 (upto 7 1) 0 1 (upto 7 1) A MV N); [rewrite b_init; exact F|vm_compute; reflexivity].
Qed.
Print Assumptions C60_zero_refuted.

(** ** cases meeting the hypotheses *)
Fixpoint safeb (n : nat) (G : mg) (ops : list dop) : bool :=
  match ops with
  | [] => true
  | o :: ops' =>
      match o with DAdd s t _ => (s <? n) && (t <? n) && ((mc G =? 0)%N || N.odd (mc G)) | DRem _ _ => true end &&
      match g_step G o with Some G' => (is_add o || (mc G' =? mc G)%N || negb (existsb is_add ops')) && (m_n G' =? n) && safeb n G' ops' | None => true end
  end.
Lemma safeb_ok n : 2 <= n -> forall ops G, m_n G = n -> safeb n G ops = true -> safe n G ops.
Proof.
  intros Hn. induction ops as [|o ops IH]; intros G N H; [exact I|]. cbn [safeb] in H. apply andb_true_iff in H as [H1 H2]. destruct (mc_ok G ltac:(lia)) as (_ & _ & M). rewrite N in M. split.
  - intros s t w ->. rewrite !andb_true_iff, !Nat.ltb_lt in H1. destruct H1 as ((A & B) & C). split; [auto|]. split; [auto|]. intros c Mc. rewrite (mincut_unique _ _ _ _ Mc M). apply orb_true_iff in C as [C|C]; [left; apply N.eqb_eq; exact C|auto].
  - intros G' E. rewrite E in H2. rewrite !andb_true_iff, Nat.eqb_eq in H2. destruct H2 as ((A & B) & C). split; [|apply IH; auto].
    intro NA. rewrite NA in A. cbn in A. apply orb_true_iff in A as [A|A]; [left|right; apply negb_true_iff; exact A]. intros c Mc. rewrite (mincut_unique _ _ _ _ Mc M). apply N.eqb_eq in A. rewrite <- A. destruct (mc_ok G' ltac:(lia)) as (_ & _ & M'). rewrite B in M'. exact M'.
Qed.
Fixpoint keepsb (n : nat) (G : mg) (ops : list dop) : bool :=
  match ops with
  | [] => true
  | o :: ops' =>
      match o with DAdd _ _ w => negb (w =? 0)%N | DRem _ _ => true end &&
      match g_step G o with
      | Some G' => (is_add o || forallb (fun l => negb (propb l) || negb (val G' l =? mc G)%N || (val G l =? mc G)%N) (bools n)) && (m_n G' =? n) && keepsb n G' ops'
      | None => true
      end
  end.
Lemma keepsb_ok n : 2 <= n -> forall ops G, m_n G = n -> keepsb n G ops = true -> keeps n G ops.
Proof.
  intros Hn. induction ops as [|o ops IH]; intros G N H; [exact I|]. cbn [keepsb] in H. apply andb_true_iff in H as [H1 H2]. destruct (mc_ok G ltac:(lia)) as (_ & _ & M). rewrite N in M. split.
  - intros s t w -> ->. discriminate H1.
  - intros G' E. rewrite E in H2. rewrite !andb_true_iff, Nat.eqb_eq in H2. destruct H2 as ((A & B) & C). split; [|apply IH; auto].
    intros NA c Mc _ S P ES. rewrite NA in A. cbn [orb] in A. rewrite forallb_forall in A. specialize (A _ (lof_in n S)). rewrite (proper_lof _ _ P) in A. rewrite <- (mincut_unique _ _ _ _ Mc M) in A.
    assert (VG : forall H, m_n H = n -> val H (lof n S) = cutw n (mwt H) S) by (intros H <-; apply lof_val).
    rewrite (VG G' B), (VG G N), ES, N.eqb_refl in A. cbn [negb orb] in A. apply N.eqb_eq. exact A.
Qed.

(** insertions and removals on a path with seven vertices; the third removal splits the graph *)
Definition pth_safe : list dop := [DAdd 1 3 1; DAdd 0 2 5; DRem 1 2; DAdd 2 6 3; DRem 0 2; DRem 1 3; DRem 0 1].
Example c43_case : answers 7 (at_call pth pth_safe) (b_all pth 1) b_noi b_flow (b_rebuild pth) b_ord /\ mvalid pth /\ m_n pth = 7 /\ safe 7 pth pth_safe.
Proof. destruct pth_self as (MV & N & _ & A). split; [apply (answers_sub _ (fun _ _ => True)); auto|]. split; [auto|]. split; [auto|]. apply safeb_ok; [lia|auto|vm_compute; reflexivity]. Qed.
Example c43_case_run : map (fun k => option_map (fun st => (d_cut st, m_n (d_c st), d_num st)) (b_run pth 1 pth (firstn k pth_safe))) (seq 0 8) =
  [Some (1%N, 7, 0); Some (1%N, 5, 0); Some (1%N, 4, 0); Some (1%N, 4, 0); Some (2%N, 2, 0); Some (1%N, 2, 1); Some (0%N, 2, 2); Some (0%N, 2, 2)].
Proof. vm_compute. reflexivity. Qed.

(** the answers by trying all cuts are complete when there is one minimum cut *)
Fixpoint fulls (G0 : mg) (c0 : N) (n : nat) (G : mg) (ops : list dop) : bool :=
  (m_n G =? n) && (if mg_dec G G0 then true else fullb G (mc G) (two G)) &&
  match ops with [] => true | o :: ops' => match g_step G o with Some G' => fulls G0 c0 n G' ops' | None => true end end.
Lemma fulls_at G0 c0 n : forall ops G k G', fulls G0 c0 n G ops = true -> g_run G (firstn k ops) = Some G' -> m_n G' = n /\ (G' = G0 \/ full n (mwt G') (mc G') (two G')).
Proof.
  induction ops as [|o ops IH]; intros G k G' H E; cbn [fulls] in H; rewrite !andb_true_iff, Nat.eqb_eq in H; destruct H as ((N & F) & H).
  - rewrite firstn_nil in E. injection E as <-. split; [auto|]. destruct (mg_dec G G0); [auto|right]. rewrite <- N. apply fullb_ok. auto.
  - destruct k as [|k]; cbn [firstn g_run] in E.
    + injection E as <-. split; [auto|]. destruct (mg_dec G G0); [auto|right]. rewrite <- N. apply fullb_ok. auto.
    + destruct (g_step G o) as [G1|]; [|discriminate E]. apply (IH G1 k G' H E).
Qed.
Lemma fulls_ok n G0 c0 G ops : 2 <= n -> is_mincut n (mwt G0) c0 -> full n (mwt G0) c0 G0 -> fulls G0 c0 n G ops = true ->
  answers_full n (at_call G ops) (b_all G0 c0) b_flow (b_rebuild G0).
Proof.
  intros Hn M0 F0 H. assert (X : forall k G' known, g_run G (firstn k ops) = Some G' -> full n (mwt G') (fst (b_all G0 c0 k G' known)) (snd (b_all G0 c0 k G' known))).
  { intros k G' known E. destruct (fulls_at _ _ _ _ _ _ _ H E) as [_ F]. unfold b_all. destruct (mg_dec G' G0) as [->|]; [exact F0|]. destruct F as [|F]; [contradiction|exact F]. }
  constructor; [intros k G' [_ E] _ _; apply (X k G' None E)|intros k G' c [_ E] _ _ _; apply (X k G' (Some c) E)|].
  intros k G' s t lim c fl [_ E] _ N _ _ _ _ _ M _. pose proof (X k G' None E) as Y. unfold b_all in Y. unfold b_rebuild. destruct (mg_dec G' G0) as [->|D].
  - rewrite (mincut_unique _ _ _ _ M M0). exact F0.
  - destruct (mc_ok G' ltac:(lia)) as (_ & _ & M'). rewrite N in M'. rewrite (mincut_unique _ _ _ _ M M'). exact Y.
Qed.

(** insertions into a path of five vertices until one minimum cut is left, and on *)
Definition p5_ops : list mop := map (fun i => NewEdge i (i+1) 1%N) [0;1;2;3].
Definition p5 : mg := mg_of 5 p5_ops.
Definition p5_edit : list dop := [DAdd 1 4 3; DAdd 2 4 3; DAdd 1 3 3; DAdd 0 2 1; DRem 0 1].
Example c60_case : answers 5 (at_call p5 p5_edit) (b_all p5 1) b_noi b_flow (b_rebuild p5) b_ord /\ answers_full 5 (at_call p5 p5_edit) (b_all p5 1) b_flow (b_rebuild p5) /\
  mvalid p5 /\ m_n p5 = 5 /\ safe 5 p5 p5_edit /\ keeps 5 p5 p5_edit.
Proof.
  destruct (mg_of_self 5 p5_ops 1 (upto 5 1) (map (upto 5) [1;2;3;4])) as (MV & N & F & A); [vm_compute; reflexivity|vm_compute; reflexivity|].
  split; [apply (answers_sub _ (fun _ _ => True)); auto|]. split; [apply fulls_ok; [lia| |exact F|vm_compute; reflexivity]|].
  - rewrite <- N at 1. apply (is_mcb_ok _ _ (upto 5 1)). vm_compute. reflexivity.
  - split; [exact MV|]. split; [exact N|]. split; [apply safeb_ok; [lia|exact N|vm_compute; reflexivity]|apply keepsb_ok; [lia|exact N|vm_compute; reflexivity]].
Qed.
Example c60_case_run : map (fun k => option_map (fun st => (d_cut st, m_pos (d_c st))) (b_run p5 1 p5 (firstn k p5_edit))) [0; 1; 4; 5] =
  [Some (1%N, [0; 1; 2; 3; 4]); Some (1%N, [0; 1; 1; 1; 1]); Some (2%N, [1; 0; 0; 0; 0]); Some (1%N, [1; 0; 0; 0; 0])].
Proof. vm_compute. reflexivity. Qed.

(** the refuted claims have instances: the histories run and the starting cactuses are complete *)
Example c43_refuted_cases : option_map (fun st => (d_cut st, mc (d_g st))) (b_run tri 2 tri tri_add) = Some (2%N, 3%N) /\
  option_map (fun st => (d_cut st, mc (d_g st))) (b_run pth 1 pth pth_edit) = Some (1%N, 2%N).
Proof. vm_compute. auto. Qed.
