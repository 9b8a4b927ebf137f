(* P_Split3.v - proofs about M_Split: what splitConnectedComponents returns. *)
From Coq Require Import Permutation.
From Verif Require Import SpecMutable P_Mutable P_MutableIO P_Kernel P_KernelC P_Iso P_IsoFlow P_Flow6 P_Split P_Split2 M_Split.

Section Comp.
Context (k n cc : nat) (tm comp : list (option nat)) (G : mg) (ord : list nat -> list nat).
Hypothesis Ltm : length tm = n.
Hypothesis Htm : forall v t, nth v tm None = Some t -> t < k.
Hypothesis Lc : length comp = n.
Hypothesis Hc : forall v, v < n -> exists c, nth v comp None = Some c /\ c < cc.
Hypothesis MG : mvalid G.
Hypothesis NG : m_n G = n.
Hypothesis OP : forall l, Permutation (ord l) l.

(** the vertices of component c, and the terminals found there *)
Definition blk (c v : nat) : bool := match nth v comp None with Some c' => c' =? c | None => false end.
Definition verts (c : nat) : list nat := ext_map (blk c) n.
Definition hasb (c t : nat) : bool := existsb (fun v => isT tm v t) (verts c).
Definition terms (c : nat) : list nat := filter (hasb c) (seq 0 k).
Definition many (c : nat) : bool := 2 <=? length (terms c).

Lemma blk_eq c v : blk c v = true <-> nth v comp None = Some c.
Proof. unfold blk. destruct (nth v comp None) as [c'|]; [rewrite Nat.eqb_eq; split; congruence|split; discriminate]. Qed.
Lemma isT_eq v t : isT tm v t = true <-> nth v tm None = Some t.
Proof. unfold isT. destruct (nth v tm None) as [c'|]; [rewrite Nat.eqb_eq; split; congruence|split; discriminate]. Qed.
Lemma verts_In c v : In v (verts c) <-> v < n /\ nth v comp None = Some c.
Proof. unfold verts. rewrite ext_map_In, blk_eq. reflexivity. Qed.
Lemma hasb_iff c t : hasb c t = true <-> has tm comp n c t.
Proof.
  unfold hasb, has. rewrite existsb_exists. split.
  - intros (v & Hv & E). apply verts_In in Hv as [A B]. apply isT_eq in E. exists v. auto.
  - intros (v & A & B & E). exists v. rewrite verts_In, isT_eq. auto.
Qed.

Record prob_ok (c : nat) (q : prob) : Prop := {
  po_valid : mvalid (q_orig q);
  po_n : m_n (q_orig q) = length (verts c);
  po_w : forall a b, a < length (verts c) -> b < length (verts c) ->
    wt (adj (m_rows (q_orig q))) a b = (if a =? b then 0%N else wt (adj (m_rows G)) (nth a (verts c) 0) (nth b (verts c) 0));
  po_gti : q_gti q = terms c;
  po_len : length (q_terms q) = length (terms c);
  po_pos : forall i, i < length (terms c) -> nth i (q_terms q) 0 < length (verts c);
  po_terms : forall i x, i < length (terms c) -> x < length (verts c) ->
    (nth x (m_pos (q_graph q)) 0 = nth (nth i (q_terms q) 0) (m_pos (q_graph q)) 0 <-> nth (nth x (verts c) 0) tm None = Some (nth i (terms c) 0));
  po_cvalid : mvalid (q_graph q);
  po_other : forall x y, x < length (verts c) -> y < length (verts c) -> nth x (m_pos (q_graph q)) 0 = nth y (m_pos (q_graph q)) 0 ->
    x = y \/ exists t, nth (nth x (verts c) 0) tm None = Some t /\ nth (nth y (verts c) 0) tm None = Some t }.

Context (tip : list (list bool)) (num : list nat).
Hypothesis Hnum : forall c, c < cc -> length (nth c tip []) = k /\ nth c num 0 = length (filter (fun b => b) (nth c tip [])).
Hypothesis Htip : forall c t, c < cc -> t < k -> (nth t (nth c tip []) false = true <-> has tm comp n c t).

Lemma filter_count : forall (row : list bool) m f, (forall i, i < length row -> nth i row false = f (m + i)) -> length (filter (fun b => b) row) = length (filter f (seq m (length row))).
Proof.
  induction row as [|b row IH]; intros m f H; [reflexivity|]. cbn [length seq filter]. pose proof (H 0 ltac:(cbn; lia)) as H0. cbn [nth] in H0. rewrite Nat.add_0_r in H0. rewrite <- H0.
  assert (X : length (filter (fun b => b) row) = length (filter f (seq (S m) (length row)))). { apply IH. intros i Hi. specialize (H (S i) ltac:(cbn; lia)). cbn [nth] in H. rewrite H. f_equal. lia. }
  destruct b; cbn [length]; lia.
Qed.
Lemma num_terms c : c < cc -> nth c num 0 = length (terms c).
Proof.
  intro H. destruct (Hnum c H) as [A ->]. unfold terms. rewrite <- A. apply filter_count. intros i Hi. cbn [Nat.add]. apply Bool.eq_iff_eq_true. rewrite Htip, hasb_iff by lia. reflexivity.
Qed.

Definition sinv (c : nat) (s : sst) : Prop :=
  Forall2 prob_ok (filter many (seq 0 c)) (ss_probs s) /\ length (ss_npm s) = n /\ length (ss_pip s) = n /\ length (ss_one s) = cc /\
  (forall v c', v < n -> nth v comp None = Some c' -> nth v (ss_npm s) None = (if (c' <? c) && many c' then Some c' else None) /\
     nth v (ss_pip s) None = (if (c' <? c) && many c' then Some (pid (blk c') v) else None)) /\
  (forall c', c' < cc -> (c' < c -> length (terms c') = 1 -> exists t, nth c' (ss_one s) None = Some t /\ In t (terms c')) /\
     (length (terms c') <> 1 -> nth c' (ss_one s) None = None)).

Lemma In_terms c t : In t (terms c) <-> t < k /\ hasb c t = true.
Proof. unfold terms. rewrite filter_In, in_seq. split; intros [? ?]; split; auto; lia. Qed.

Lemma one_ok c one : c < cc -> length one = cc ->
  (forall c', c' < cc -> (c' < c -> length (terms c') = 1 -> exists t, nth c' one None = Some t /\ In t (terms c')) /\ (length (terms c') <> 1 -> nth c' one None = None)) ->
  let one' := if nth c num 0 =? 1 then upd one c (last_true (nth c tip []) 0 None) else one in
  length one' = cc /\ forall c', c' < cc -> (c' < S c -> length (terms c') = 1 -> exists t, nth c' one' None = Some t /\ In t (terms c')) /\ (length (terms c') <> 1 -> nth c' one' None = None).
Proof.
  intros Hcc Lo H one'. unfold one'. rewrite num_terms by auto. split; [destruct (length (terms c) =? 1); rewrite ?upd_length; exact Lo|]. intros c' Hc'. destruct (Nat.eqb_spec (length (terms c)) 1) as [E|E].
  - destruct (Nat.eq_dec c' c) as [->|N].
    + rewrite nth_upd_eq by lia. split; [intros _ _|congruence]. destruct (last_true_ok (nth c tip []) 0 None) as [(j & A & B)|[A B]].
      * exists j. split; [exact B|]. destruct (Hnum c Hcc) as [K _]. assert (j < k). { destruct (Nat.lt_ge_cases j k); auto. rewrite nth_overflow in A by lia. discriminate A. }
        apply In_terms. split; [auto|]. apply hasb_iff, Htip; auto.
      * exfalso. destruct (terms c) as [|t l] eqn:Q; [discriminate E|]. assert (In t (terms c)) as X by (rewrite Q; left; auto). apply In_terms in X as [X1 X2]. apply hasb_iff, Htip in X2; auto. rewrite A in X2. discriminate X2.
    + rewrite nth_upd_neq by auto. destruct (H c' Hc') as [A B]. split; [|auto]. intros. apply A; auto. lia.
  - destruct (H c' Hc') as [A B]. split; [|auto]. intros L1 L2. apply A; auto. destruct (Nat.eq_dec c' c) as [->|]; [congruence|lia].
Qed.

Lemma NoDup_terms c : NoDup (terms c). Proof. apply NoDup_filter, seq_NoDup. Qed.

Lemma split_comp_ok s c : c < cc -> sinv c s -> exists s', split_comp ord k tm comp G tip num s c = Some s' /\ sinv (S c) s'.
Proof.
  intros Hcc (S1 & S2 & S3 & S4 & S5 & S6). destruct (one_ok c (ss_one s) Hcc S4 S6) as [O1 O2].
  unfold split_comp. set (one := if nth c num 0 =? 1 then _ else _) in *. rewrite num_terms by auto. fold (many c).
  assert (FS : filter many (seq 0 (S c)) = filter many (seq 0 c) ++ (if many c then [c] else [])). { rewrite seq_S, filter_app. cbn. destruct (many c); reflexivity. }
  destruct (many c) eqn:Mc.
  2:{ exists (mk_sst (ss_probs s) (ss_npm s) (ss_pip s) one). split; [reflexivity|]. unfold sinv. cbn [ss_probs ss_npm ss_pip ss_one]. rewrite FS, app_nil_r. refine (conj S1 (conj S2 (conj S3 (conj O1 (conj _ O2))))).
      intros v c' Hv E. destruct (S5 v c' Hv E) as [A B]. destruct (Nat.ltb_spec c' c), (Nat.ltb_spec c' (S c)); try lia; cbn [andb] in *; auto. assert (c' = c) by lia. subst c'. rewrite Mc. auto. }
  change (fun v : nat => match nth v comp None with Some c' => c' =? c | None => false end) with (blk c).
  destruct (m_extract_ok (blk c) G MG) as (Gb & -> & VB & NB & WB & PB & CB & POB & COB). rewrite NG in *. fold (verts c) in *. set (m := length (verts c)) in *.
  assert (EM : forall v, In v (verts c) -> v < n /\ nth v (ss_pip s) None = None).
  { intros v Hv. apply verts_In in Hv as [Hv E]. split; [auto|]. destruct (S5 v c Hv E) as [_ B]. rewrite Nat.ltb_irrefl in B. exact B. }
  destruct (place_ok k n cc tm comp Ltm Htm Lc Hc c m (verts c) 0 (ss_npm s) (ss_pip s) (repeat [] k) (repeat false (m_n Gb))) as (npm & pip & bl & fx & E & L1 & L2 & L3 & A4 & A5 & A6 & A7); auto.
  { apply NoDup_ext. } { apply repeat_length. } { rewrite repeat_length. exact NB. }
  rewrite E.
  assert (BL : forall t, nth t bl [] = filter (fun j => isT tm (nth j (verts c) 0) t) (seq 0 m)).
  { intros t. rewrite A7, nth_repeat, app_nil_l. apply map_id. }
  assert (BI : forall t j, In j (nth t bl []) <-> j < m /\ nth (nth j (verts c) 0) tm None = Some t).
  { intros t j. rewrite BL, filter_In, in_seq, isT_eq. split; intros [X Y]; split; auto; lia. }
  rewrite pick_terms_ok, L3.
  assert (TE : filter (fun g => nonempty (nth (g - 0) bl [])) (seq 0 k) = terms c).
  { unfold terms. apply filter_ext_in. intros t Ht. rewrite Nat.sub_0_r. apply Bool.eq_iff_eq_true. unfold hasb. rewrite existsb_exists. split.
    - intros X. destruct (nth t bl []) as [|j l] eqn:Q; [discriminate X|]. assert (In j (nth t bl [])) as Hj by (rewrite Q; left; auto). apply BI in Hj as [Hj1 Hj2]. exists (nth j (verts c) 0). split; [apply nth_In; auto|apply isT_eq; auto].
    - intros (v & Hv & Ht'). apply isT_eq in Ht'. apply In_nth with (d := 0) in Hv as (j & Hj & <-). assert (In j (nth t bl [])) as X by (apply BI; auto). destruct (nth t bl []); [contradiction|reflexivity]. }
  rewrite TE. set (ps := map _ (terms c)).
  assert (DJ : forall i j x, In x (nth i bl []) -> In x (nth j bl []) -> i = j). { intros i j x Hi Hj. apply BI in Hi as [_ Hi]. apply BI in Hj as [_ Hj]. congruence. }
  destruct (contract_blocks_ok ord Gb bl (map (pair 0) (filter big bl)) OP VB) as (Gc & g & done & -> & CS & GC).
  { rewrite PB, repeat_length. auto. } { rewrite CB, repeat_length. auto. }
  { rewrite COB, POB, NB. split; [rewrite map_length, seq_length; auto|]. intros p x Hp. rewrite seq_length.
    rewrite nth_indep with (d' := [0]) by (rewrite map_length, seq_length; auto). rewrite (map_nth (fun i : nat => [i]) (seq 0 m) 0), seq_nth by auto. cbn. split.
    - intros [<-|[]]. split; [auto|]. apply seq_nth; auto.
    - intros [Hx Ex]. rewrite seq_nth in Ex by auto. left. cbn in Ex. auto. }
  { intros p Hp. rewrite NB in Hp. rewrite COB, nth_indep with (d' := [0]) by (rewrite map_length, seq_length; auto). rewrite (map_nth (fun i : nat => [i]) (seq 0 m) 0). intro X. discriminate X. }
  { rewrite map_map. cbn. apply map_id. }
  { intros b v Hb Hv. apply In_nth with (d := []) in Hb as (t & Ht & <-). apply BI in Hv as [Hv _]. lia. }
  exists (mk_sst (ss_probs s ++ [mk_prob Gb Gc ps fx (terms c)]) npm pip one). split; [reflexivity|].
  assert (GG : forall u v, u < m -> v < m -> (g u = g v <-> u = v \/ exists b, In b bl /\ big b = true /\ In u b /\ In v b)).
  { intros u v Hu Hv. rewrite GC by lia. apply disjoint_together; auto. }
  assert (PO : forall x, x < m -> nth x (m_pos Gc) 0 = g x). { intros x Hx. rewrite (s_pos _ _ _ _ CS) by (rewrite POB, seq_length; auto). rewrite POB, seq_nth; auto. }
  assert (PH : forall i, i < length (terms c) -> nth i ps 0 = hd 0 (nth (nth i (terms c) 0) bl []) /\ In (nth i ps 0) (nth (nth i (terms c) 0) bl [])).
  { intros i Hi. assert (nth i ps 0 = hd 0 (nth (nth i (terms c) 0) bl [])) as Q.
    { unfold ps. rewrite nth_indep with (d' := (fun g => hd 0 (nth (g - 0) bl [])) 0) by (rewrite map_length; auto). rewrite (map_nth (fun g => hd 0 (nth (g - 0) bl []))), Nat.sub_0_r. reflexivity. }
    split; [exact Q|]. rewrite Q. pose proof (nth_In (terms c) 0 Hi) as X. rewrite <- TE in X at 2. apply filter_In in X as [_ X]. rewrite Nat.sub_0_r in X. destruct (nth (nth i (terms c) 0) bl []); [discriminate X|left; reflexivity]. }
  unfold sinv. cbn [ss_probs ss_npm ss_pip ss_one]. rewrite FS. refine (conj _ (conj L1 (conj L2 (conj O1 (conj _ O2))))).
  - apply Forall2_app; [exact S1|]. constructor; [|constructor]. constructor; cbn [q_orig q_graph q_terms q_gti]; auto.
    + unfold ps. apply map_length.
    + intros i Hi. destruct (PH i Hi) as [_ X]. apply BI in X as [X _]. exact X.
    + intros i x Hi Hx. destruct (PH i Hi) as [_ X]. pose proof X as X0. apply BI in X as [Y1 Y2]. rewrite !PO by auto. rewrite GG by auto. split.
      * intros [->|(b & Hb & _ & Hx' & Hp)]; [auto|]. apply In_nth with (d := []) in Hb as (t & Ht & <-). rewrite <- (DJ _ _ _ Hp X0). apply BI in Hx' as [_ Z]. exact Z.
      * intros Z. destruct (Nat.eq_dec x (nth i ps 0)) as [|Ne]; [auto|]. right. set (t := nth i (terms c) 0) in *. assert (Hx' : In x (nth t bl [])) by (apply BI; auto).
        exists (nth t bl []). split; [|split; [|split]]; auto.
        -- apply nth_In. rewrite L3. assert (In t (terms c)) as Q by (apply nth_In; auto). apply In_terms in Q. lia.
        -- unfold big. apply Nat.ltb_lt. destruct (nth t bl []) as [|a [|b l]]; cbn [In length] in *; lia.
    + apply (s_valid _ _ _ _ CS).
    + intros x y Hx Hy. rewrite !PO, GG by auto. intros [->|(b & Hb & _ & Hx' & Hy')]; [auto|]. right. apply In_nth with (d := []) in Hb as (t & Ht & <-). apply BI in Hx' as [_ ?], Hy' as [_ ?]. exists t. auto.
  - intros v c' Hv Ec. destruct (S5 v c' Hv Ec) as [A B]. rewrite A4. destruct (Nat.eq_dec c' c) as [->|N].
    + destruct (Nat.ltb_spec c (S c)); [|lia]. rewrite Mc. cbn [andb]. assert (Iv : In v (verts c)) by (apply verts_In; auto). split.
      * apply mem_In in Iv. rewrite Iv. reflexivity.
      * assert (PL : pid (blk c) v < m) by (apply pid_lt; auto; apply blk_eq; auto). specialize (A6 _ PL). unfold verts in A6. rewrite nth_pid in A6 by (auto; apply blk_eq; auto). rewrite A6. reflexivity.
    + assert (Nv : ~ In v (verts c)) by (rewrite verts_In; intros [_ X]; congruence). rewrite A5 by auto. apply mem_out in Nv. rewrite Nv, A, B.
      assert (X : (c' <? S c) = (c' <? c)) by (apply Bool.eq_iff_eq_true; rewrite !Nat.ltb_lt; lia). rewrite X. auto.
Qed.

Lemma split_comps_ok : forall r c s, c + r = cc -> sinv c s -> exists s', split_comps ord k tm comp G tip num s (seq c r) = Some s' /\ sinv cc s'.
Proof.
  induction r as [|r IH]; intros c s E I; [exists s; rewrite Nat.add_0_r in E; subst; auto|]. cbn [seq split_comps].
  destruct (split_comp_ok s c ltac:(lia) I) as (s' & -> & I'). apply IH; auto. lia.
Qed.
End Comp.

Theorem split_loops_ok k n cc tm comp G ord : length tm = n -> (forall v t, nth v tm None = Some t -> t < k) -> length comp = n ->
  (forall v, v < n -> exists c, nth v comp None = Some c /\ c < cc) -> mvalid G -> m_n G = n -> (forall l, Permutation (ord l) l) ->
  exists tip num s, count_terms tm comp 0 (repeat (repeat false k) cc) (repeat 0 cc) = Some (tip, num) /\
    split_comps ord k tm comp G tip num (mk_sst [] (repeat None n) (repeat None n) (repeat None cc)) (seq 0 cc) = Some s /\ sinv k n cc tm comp G cc s.
Proof.
  intros Ltm Htm Lc Hc MG NG OP.
  destruct (count_terms_ok k n cc tm comp Ltm Htm Lc Hc comp 0 (repeat (repeat false k) cc) (repeat 0 cc)) as (tip & num & E & A & B); auto.
  { apply repeat_length. } { apply repeat_length. }
  { intros c Hcc. rewrite !nth_repeat_lt by auto. rewrite repeat_length. split; [auto|]. clear. induction k as [|k IH]; [reflexivity|]. exact IH. }
  { intros c t Hcc Ht. rewrite !nth_repeat_lt by auto. split; [discriminate|]. intros (v & Lv & _). lia. }
  exists tip, num. rewrite E.
  destruct (split_comps_ok k n cc tm comp G ord Ltm Htm Lc Hc MG NG OP tip num A B cc 0 (mk_sst [] (repeat None n) (repeat None n) (repeat None cc))) as (s & E' & I); auto.
  - unfold sinv. cbn [ss_probs ss_npm ss_pip ss_one]. rewrite !repeat_length. split; [constructor|]. split; [auto|]. split; [auto|]. split; [auto|]. split.
    + intros v c' _ _. rewrite !nth_repeat. auto.
    + intros c' _. rewrite nth_repeat. split; [intros L; lia|auto].
  - exists s. auto.
Qed.
