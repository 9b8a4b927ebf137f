(* P_StCactus3.v - proofs about findSTCactus, part 3: the cactus built from a list of items stands for all minimum cuts. *)
From Verif Require Import SpecCut SpecDyn SpecMutable M_Mutable P_Mutable P_Cut P_LocalSearch2 P_AllMincuts M_StCactus P_Crossing P_StCactus P_StCactus2.

(** the run of a link is a minimum cut, and each minimum cut in the inside lies in a run *)
Definition runs_ok (n : nat) (W : wfun) (c : N) (ls : list link) : Prop :=
  (forall l, In l ls -> l_len l <> 0 -> 1 <= l_a l /\ l_a l + l_len l <= n - 1 /\ cutw n W (itv (l_a l) (l_a l + l_len l - 1)) = c) /\
  (forall i j, 1 <= i -> i <= j -> j < n - 1 -> cutw n W (itv i j) = c -> exists l, In l ls /\ l_a l <= i /\ j < l_a l + l_len l).

Lemma chain_represents n W c ls e : chained n W c -> chainl c n 0 1 n ls e -> runs_ok n W c ls ->
  (forall f, proper e f -> (c <= tot c f ls)%N) /\
  (forall f, proper e f -> tot c f ls = c -> proper n f /\ cutw n W f = c) /\
  (forall S, proper n S -> cutw n W S = c -> exists f, tot c f ls = c /\ forall x, x < n -> f x = S x).
Proof.
  intros Cd Ch [R1 R2]. pose proof (ch_n _ _ _ Cd) as Nn. pose proof (ch_pos _ _ _ Cd) as Pc. pose proof (ch_sym _ _ _ Cd) as Sy. pose proof (chainl_le c Pc _ _ _ _ _ _ Ch) as [Le _].
  assert (NF : forall f, proper e f -> flat n f 0 1 n e -> False).
  { intros f [(u & Hu & Fu) (v & Hv & Fv)] [A B].
    assert (forall x, x < e -> f x = f 0). { intros x Hx. destruct (Nat.eq_dec x 0) as [->|]; [auto|]. destruct (Nat.lt_ge_cases x n); [apply A|apply B]; lia. }
    rewrite H in Fu, Fv by auto. congruence. }
  split; [|split].
  - intros f Pf. destruct (chain_cuts c Pc n f 0 1 n ls e Ch) as [[_ F]|[[E _]|E]]; [destruct (NF f Pf F)|rewrite E; apply N.le_refl|apply N.lt_le_incl, E].
  - intros f Pf Ef. destruct (chain_cuts c Pc n f 0 1 n ls e Ch) as [[_ F]|[[E (i & j & I & IJ & J & F & Loc)]|E]]; [destruct (NF f Pf F)| |clear - E Ef; lia].
    assert (F' : forall x, x < n -> f x = if (i <=? x) && (x <? j) then negb (f 0) else f 0).
    { intros x Hx. destruct x as [|x]; [destruct (Nat.leb_spec i 0); [lia|reflexivity]|apply F; lia]. }
    assert (Pn : proper n f). { assert (f i = negb (f 0)). { rewrite F' by lia. destruct (Nat.leb_spec i i); [|lia]. destruct (Nat.ltb_spec i j); [|lia]. reflexivity. }
      destruct (f 0) eqn:F0; [split; [exists 0|exists i]|split; [exists i|exists 0]]; split; auto; lia. }
    split; [auto|].
    assert (K : forall S, (forall x, x < n -> S x = itv i (j - 1) x) -> cutw n W S = c).
    { intros S HS. destruct (Nat.eq_dec j n) as [Q|Q].
      - rewrite <- cutw_compl by auto. rewrite <- (ch_pre _ _ _ Cd (i - 1)) by lia. apply cutw_ext. intros x Hx. rewrite HS by auto. unfold itv, pre. destruct (Nat.leb_spec i x), (Nat.leb_spec x (j - 1)), (Nat.leb_spec x (i - 1)); cbn; auto; lia.
      - destruct Loc as [?|(l & Il & A & B)]; [congruence|]. destruct (R1 l Il ltac:(lia)) as (L1 & L2 & L3).
        rewrite (cutw_ext n W S (itv i (j - 1)) HS). apply (sub_itv2 n W c Cd (l_a l) (l_a l + l_len l - 1)); auto; lia. }
    destruct (f 0) eqn:F0.
    + rewrite <- cutw_compl by auto. apply K. intros x Hx. rewrite F' by auto. unfold itv. destruct (Nat.leb_spec i x), (Nat.ltb_spec x j), (Nat.leb_spec x (j - 1)); cbn; auto; lia.
    + apply K. intros x Hx. rewrite F' by auto. unfold itv. destruct (Nat.leb_spec i x), (Nat.ltb_spec x j), (Nat.leb_spec x (j - 1)); cbn; auto; lia.
  - assert (K : forall S, proper n S -> cutw n W S = c -> S 0 = true -> exists f, tot c f ls = c /\ forall x, x < n -> f x = negb (S x)).
    { intros S PS ES S0. destruct (itv_or_prefix n W c Cd S PS ES S0) as [(i & Hi & Ei)|(a & b & A & AB & B & Ei)].
      - destruct (chain_suffix c Pc n 0 1 n ls e Ch (le_n n) (i + 1) ltac:(lia) ltac:(lia)) as (k & _ & T). exists (cutf n (i + 1) k). split; [auto|].
        intros x Hx. rewrite Ei by auto. unfold cutf, pre. destruct (Nat.ltb_spec x n); [|lia]. destruct (Nat.leb_spec (i + 1) x), (Nat.leb_spec x i); cbn; auto; lia.
      - assert (Eab : cutw n W (itv a b) = c). { rewrite <- ES, <- (cutw_compl n W S) by auto. apply cutw_ext. intros x Hx. rewrite Ei by auto. rewrite negb_involutive. reflexivity. }
        destruct (R2 a b A AB B Eab) as (l & Il & L). exists (itv a b). split; [apply (chain_itv c Pc n 0 1 n ls e Ch (le_n n) a b AB); [exists l; auto|lia]|].
        intros x Hx. rewrite Ei by auto. rewrite negb_involutive. reflexivity. }
    intros S PS ES. destruct (S 0) eqn:S0.
    + destruct (K S PS ES S0) as (f & T & F). exists (fun x => negb (f x)). split.
      * transitivity (tot c f ls); [|exact T]. unfold tot. apply sumN_ext. intros l _. unfold lw.
        assert (D : forall x y w, dif (fun z => negb (f z)) x y w = dif f x y w) by (intros; unfold dif; destruct (f x), (f y); reflexivity).
        assert (M : forall l p, nch (fun z => negb (f z)) p l = nch f p l). { induction l0 as [|y l0 IH]; intro p; cbn [nch]; [reflexivity|]. rewrite IH. destruct (f p), (f y); reflexivity. }
        rewrite D, M. rewrite D. reflexivity.
      * intros x Hx. rewrite F by auto. apply negb_involutive.
    + destruct (K (fun x => negb (S x))) as (f & T & F); [apply proper_compl; auto|rewrite cutw_compl; auto|rewrite S0; auto|].
      exists f. split; [auto|]. intros x Hx. rewrite F by auto. apply negb_involutive.
Qed.

(** ** the edges of the cactus *)
Lemma empty_any C : mvalid C -> m_last C = m_n C -> let C' := new_empty_node C in mvalid C' /\ m_n C' = S (m_n C) /\ m_last C' = m_n C' /\ m_pos C' = m_pos C /\ m_cont C' = m_cont C ++ [[]] /\ m_orig C' = m_orig C /\ forall f, gcut C' f = gcut C f.
Proof.
  intros V L C'. set (C0 := mk_mg (m_rows C) (m_deg C) (m_part C) (m_cut C) (m_pos C) (repeat [] (m_n C)) (m_last C) (m_ne C) (m_pc C) (m_orig C)).
  destruct (empty_node C0) as (A1 & A2 & A3 & _ & _ & A4 & A5); auto.
  - apply repeat_length.
  - intros p _. apply nth_repeat.
  - unfold C', new_empty_node in *. change (m_last C0) with (m_last C) in *. change (m_n C0) with (m_n C) in *. rewrite L, Nat.eqb_refl in *.
    split; [exact A1|]. split; [exact A2|]. split; [exact A3|]. split; [reflexivity|]. split; [reflexivity|]. split; [reflexivity|exact A5].
Qed.
Lemma order_more C s t w C' : new_edge_order C s t w = Some C' -> m_cont C' = m_cont C /\ m_last C' = m_last C /\ m_pos C' = m_pos C /\ m_orig C' = m_orig C.
Proof.
  unfold new_edge_order, m_new_edge. intro E. destruct (s <? t).
  - destruct (t <? m_n C); [|discriminate E]. injection E as <-. auto.
  - destruct (t <? s).
    + destruct (s <? m_n C); [|discriminate E]. injection E as <-. auto.
    + injection E as <-. auto.
Qed.
Definition same_info (M M' : mg) : Prop := m_pos M' = m_pos M /\ m_orig M' = m_orig M /\ m_last M' = m_n M' /\ exists k, m_cont M' = m_cont M ++ repeat [] k.
Lemma same_order M s t w M' : m_last M = m_n M -> m_n M' = m_n M -> new_edge_order M s t w = Some M' -> same_info M M'.
Proof. intros L N E. destruct (order_more _ _ _ _ _ E) as (A & B & C & D). split; [auto|]. split; [auto|]. split; [congruence|]. exists 0. cbn. rewrite app_nil_r. auto. Qed.
Lemma same_trans A B C : same_info A B -> same_info B C -> same_info A C.
Proof.
  intros (P1 & O1 & L1 & k1 & C1) (P2 & O2 & L2 & k2 & C2). split; [congruence|]. split; [congruence|]. split; [auto|]. exists (k1 + k2). rewrite C2, C1, <- app_assoc, <- repeat_app. reflexivity.
Qed.
Lemma same_refl M : m_last M = m_n M -> same_info M M.
Proof. intro L. split; [auto|]. split; [auto|]. split; [auto|]. exists 0. cbn. rewrite app_nil_r. auto. Qed.

Fixpoint pathw (f : nat -> bool) (w : N) (p : nat) (l : list nat) : N := match l with [] => 0%N | x :: l' => (dif f p x w + pathw f w x l')%N end.
Lemma pathw_nch f w : forall l p, pathw f w p l = (N.of_nat (nch f p l) * w)%N.
Proof. induction l as [|x l IH]; intro p; cbn [pathw nch]; [lia|]. rewrite IH. unfold dif. destruct (Bool.eqb (f p) (f x)); lia. Qed.
Lemma path_ok w : forall xs p M, mvalid M -> m_last M = m_n M -> p < m_n M -> (forall x, In x xs -> x < m_n M) -> NoDup (p :: xs) ->
  exists M', sc_path w p xs M = Some M' /\ mvalid M' /\ m_n M' = m_n M /\ same_info M M' /\ forall f, gcut M' f = (gcut M f + pathw f w p xs)%N.
Proof.
  induction xs as [|x xs IH]; intros p M V L Hp B D; cbn [sc_path pathw].
  - exists M. split; [auto|]. split; [auto|]. split; [auto|]. split; [apply same_refl; auto|]. intro f. lia.
  - apply NoDup_cons_iff in D. destruct D as [D1 D2]. destruct (order_cut M p x w V Hp (B x (or_introl eq_refl))) as (M1 & E1 & V1 & N1 & C1). { intro Q. apply D1. left. auto. }
    rewrite E1. pose proof (same_order _ _ _ _ _ L N1 E1) as I1. destruct (IH x M1) as (M2 & E2 & V2 & N2 & I2 & C2); auto.
    + apply I1.
    + rewrite N1. apply B. left. auto.
    + intros y Hy. rewrite N1. apply B. right. auto.
    + exists M2. split; [auto|]. split; [auto|]. split; [congruence|]. split; [eapply same_trans; eauto|]. intro f. rewrite C2, C1. lia.
Qed.

(** the items from vertex i on *)
Inductive items (c : N) (n : nat) : nat -> list sc_item -> Prop :=
| is_last : items c n (n - 1) [ItB (n - 1)]
| is_B i its : i < n - 1 -> items c n (S i) its -> items c n i (ItB i :: its)
| is_A i len its : 1 <= len -> i + len <= n - 1 -> c = (2 * (c / 2))%N -> items c n (i + len) its -> items c n i (ItA (seq i len) :: its).
(** the runs among them *)
Definition runs (its : list sc_item) : list (nat * nat) := flat_map (fun it => match it with ItA xs => [(hd 0 xs, length xs)] | ItB _ => [] end) its.

Definition entry (its : list sc_item) (prev : nat) : nat := match its with ItB x :: _ => x | _ => prev end.
Definition after (its : list sc_item) (i : nat) : nat := match its with ItB _ :: _ => S i | _ => i end.

Lemma items_hd c n i its : items c n i its -> (exists its', its = ItB i :: its') \/ exists len its', its = ItA (seq i len) :: its' /\ 1 <= len /\ i + len <= n - 1.
Proof. destruct 1; [left; eauto|left; eauto|right; eauto 6]. Qed.

Lemma links_ok c n : (0 < c)%N -> 2 <= n -> forall its i, items c n i its -> forall prev M, mvalid M -> m_last M = m_n M -> n <= m_n M -> prev < m_n M ->
  match its with ItA _ :: _ => prev < i \/ n <= prev | _ => True end ->
  exists M' ls, sc_links c its prev M = Some M' /\ mvalid M' /\ same_info M M' /\ chainl c n (entry its prev) (after its i) (m_n M) ls (m_n M') /\
    (forall f, gcut M' f = (gcut M f + tot c f ls)%N) /\ (forall a len, 0 < len -> (In (a, len) (runs its) <-> exists l, In l ls /\ l_a l = a /\ l_len l = len)).
Proof.
  intros Pc Nn its i H. induction H as [|i its Hi H IH|i len its Hl Hi Ev H IH]; intros prev M V L Bn Hp Dp.
  - exists M, []. cbn [sc_links entry after]. split; [auto|]. split; [auto|]. split; [apply same_refl; auto|]. split; [|split].
    + replace (S (n - 1)) with n by lia. constructor.
    + intro f. cbn. lia.
    + intros a len Q. cbn. split; [contradiction|intros (l & [] & _)].
  - destruct (items_hd _ _ _ _ H) as [(its' & Q)|(len & its' & Q & Q1 & Q2)].
    + destruct (order_cut M i (S i) c V ltac:(lia) ltac:(lia) ltac:(lia)) as (M1 & E1 & V1 & N1 & C1). pose proof (same_order _ _ _ _ _ L N1 E1) as S1.
      destruct (IH i M1 V1 (proj1 (proj2 (proj2 S1)))) as (M' & ls & E & V' & S' & Ch & Cu & Ru); try lia.
      { rewrite Q. exact I. }
      exists M', (mk_link i (S i) 0 (S i + 0) :: ls). rewrite Q in *. cbn [sc_links entry after] in *. rewrite E1. split; [exact E|]. split; [auto|]. split; [eapply same_trans; eauto|].
      rewrite N1 in Ch. split; [|split].
      * apply cl_real; [lia| |left; auto]. replace (S i + 0) with (S i) by lia. exact Ch.
      * intro f. rewrite Cu, C1. unfold tot. cbn [sumN]. unfold lw at 2. cbn [l_len l_p l_q Nat.eqb]. replace (S i + 0) with (S i) by lia. lia.
      * intros a len Pl. cbn [runs flat_map app] in *. rewrite Ru by auto. split; intros (l & Il & A); [exists l; split; [right|]; auto|].
        destruct Il as [<-|Il]; [cbn in A; lia|exists l; auto].
    + destruct (IH i M V L Bn ltac:(lia) ltac:(rewrite Q; lia)) as (M' & ls & E & V' & S' & Ch & Cu & Ru).
      exists M', ls. rewrite Q in *. cbn [sc_links entry after] in *. split; [exact E|]. split; [auto|]. split; [auto|]. split; [exact Ch|]. split; [auto|]. intros a len0 Pl. rewrite <- Ru by auto. reflexivity.
  - destruct (items_hd _ _ _ _ H) as [(its' & Q)|(len2 & its' & Q & Q1 & Q2)].
    + (* a single vertex follows *)
      assert (ND : NoDup (prev :: seq i len ++ [i + len])).
      { rewrite <- (seq_S len i). constructor; [rewrite in_seq; lia|apply seq_NoDup]. }
      destruct (path_ok (c / 2) (seq i len ++ [i + len]) prev M V L Hp) as (M1 & E1 & V1 & N1 & S1 & C1); auto.
      { intros x Hx. rewrite <- (seq_S len i) in Hx. apply in_seq in Hx. lia. }
      destruct (order_cut M1 prev (i + len) (c / 2) V1) as (M2 & E2 & V2 & N2 & C2); try lia.
      assert (L1 : m_last M1 = m_n M1) by apply S1. pose proof (same_order _ _ _ _ _ L1 N2 E2) as S2.
      destruct (IH (i + len) M2 V2 (proj1 (proj2 (proj2 S2)))) as (M' & ls & E & V' & S' & Ch & Cu & Ru); try lia.
      { rewrite Q. exact I. }
      exists M', (mk_link prev i len (i + len) :: ls). rewrite Q in *. cbn [sc_links entry after] in *. rewrite E1, E2. split; [exact E|]. split; [auto|].
      split; [eapply same_trans; [exact S1|]; eapply same_trans; eauto|]. rewrite N2, N1 in Ch. split; [|split].
      * apply cl_real; [lia| |right; auto]. exact Ch.
      * intro f. rewrite Cu, C2, C1, pathw_nch. unfold tot. cbn [sumN]. unfold lw at 2. cbn [l_len l_p l_q l_a]. destruct (Nat.eqb_spec len 0); [lia|]. lia.
      * intros a len0 Pl. cbn [runs flat_map app]. fold (runs (ItB (i + len) :: its')). cbn [In]. rewrite Ru by auto. rewrite seq_length. assert (hd 0 (seq i len) = i) as -> by (destruct len; [lia|reflexivity]).
        split; [intros [Z|(l & Il & A)]; [injection Z as <- <-; eexists; split; [left; reflexivity|auto]|exists l; split; [right|]; auto]|].
        intros (l & [<-|Il] & A & B); [left; cbn in A, B; congruence|right; exists l; auto].
    + (* another cycle follows: an empty vertex between them *)
      destruct (empty_any M V L) as (V0 & N0 & L0 & P0 & C0 & O0 & G0). assert (S0 : same_info M (new_empty_node M)).
      { split; [auto|]. split; [auto|]. split; [auto|]. exists 1. exact C0. }
      assert (ND : NoDup (prev :: seq i len ++ [m_n M])).
      { constructor; [rewrite in_app_iff, in_seq; cbn; lia|]. apply Permutation_NoDup with (m_n M :: seq i len); [apply Permutation_cons_append|]. constructor; [rewrite in_seq; lia|apply seq_NoDup]. }
      destruct (path_ok (c / 2) (seq i len ++ [m_n M]) prev (new_empty_node M) V0 L0 ltac:(lia)) as (M1 & E1 & V1 & N1 & S1 & C1); auto.
      { intros x Hx. rewrite N0. apply in_app_iff in Hx. rewrite in_seq in Hx. cbn in Hx. lia. }
      destruct (order_cut M1 prev (m_n M) (c / 2) V1) as (M2 & E2 & V2 & N2 & C2); try lia.
      assert (L1 : m_last M1 = m_n M1) by apply S1. pose proof (same_order _ _ _ _ _ L1 N2 E2) as S2.
      destruct (IH (m_n M) M2 V2 (proj1 (proj2 (proj2 S2)))) as (M' & ls & E & V' & S' & Ch & Cu & Ru); try lia.
      { rewrite Q. lia. }
      exists M', (mk_link prev i len (m_n M) :: ls). rewrite Q in *. cbn [sc_links entry after] in *. rewrite L, E1, E2. split; [exact E|]. split; [auto|].
      split; [eapply same_trans; [exact S0|]; eapply same_trans; [exact S1|]; eapply same_trans; eauto|]. rewrite N2, N1, N0 in Ch. split; [|split].
      * apply cl_new; [lia|lia| |right; auto]. exact Ch.
      * intro f. rewrite Cu, C2, C1, G0, pathw_nch. unfold tot. cbn [sumN]. unfold lw at 2. cbn [l_len l_p l_q l_a]. destruct (Nat.eqb_spec len 0); [lia|]. lia.
      * intros a len0 Pl. cbn [runs flat_map app]. fold (runs its'). change ((hd 0 (seq (i + len) len2), length (seq (i + len) len2)) :: runs its') with (runs (ItA (seq (i + len) len2) :: its')). cbn [In]. rewrite Ru by auto. rewrite seq_length. assert (hd 0 (seq i len) = i) as -> by (destruct len; [lia|reflexivity]).
        split; [intros [Z|(l & Il & A)]; [injection Z as <- <-; eexists; split; [left; reflexivity|auto]|exists l; split; [right|]; auto]|].
        intros (l & [<-|Il] & A & B); [left; cbn in A, B; congruence|right; exists l; auto].
Qed.
