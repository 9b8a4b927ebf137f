(* P_MutableIO2.v - proofs about serialisation of the mutable graph. *)
From Verif Require Import SpecCut P_Cut P_Mutable P_MutableIO M_Mutable M_MutableIO.
From Coq Require Import Permutation.

Arguments slot : simpl never.

Lemma bsum_shift_first n f : bsum (S n) f = (f 0%nat + bsum n (fun i => f (S i)))%N.
Proof. unfold bsum. cbn [seq sumN]. rewrite <- seq_shift, sumN_map. reflexivity. Qed.

Lemma firstn_upd_S {A} (l : list A) i x : i < length l -> firstn (S i) (upd l i x) = firstn i l ++ [x].
Proof.
  revert i. induction l as [|a l IH]; intros i Hi; [cbn in Hi; lia|]. destruct i as [|i]; [reflexivity|].
  cbn in Hi. change (upd (a :: l) (S i) x) with (a :: upd l i x). cbn [firstn app]. rewrite <- IH by lia. reflexivity.
Qed.

(** the two numbers written for a half edge of node n *)
Definition sedge (n : nat) (h : half) : list N := if n <? fst (fst h) then [N.of_nat (fst (fst h)); snd (fst h)] else [].

Lemma serial_row_eq ne n row : serial_row ne n row = (ne + N.of_nat n)%N :: flat_map (sedge n) row.
Proof. reflexivity. Qed.

(** what the edges of node n to larger nodes add to the sums *)
Definition addrow (n : nat) (row : list half) (f : nat -> N -> N) (u : nat) : N :=
  sumN (fun h : half => if n <? fst (fst h) then pairf n (fst (fst h)) (snd (fst h)) f u else 0%N) row.

Definition kept (M M' : mg) : Prop :=
  m_part M' = m_part M /\ m_cut M' = m_cut M /\ m_pos M' = m_pos M /\ m_cont M' = m_cont M /\ m_orig M' = m_orig M.

Lemma deserial_row nodes ne n : forall row v M, mvalid M -> m_n M = nodes -> n < nodes ->
  (forall h, In h row -> fst (fst h) < nodes /\ (N.of_nat (fst (fst h)) < ne)%N) ->
  exists M', mvalid M' /\ m_n M' = nodes /\ kept M M' /\
    (forall f u, ls nodead (m_rows M') f u = (ls nodead (m_rows M) f u + addrow n row f u)%N) /\
    forall fuel, length (flat_map (sedge n) row ++ v) < fuel ->
      exists fuel', length v < fuel' /\
        deserial_edges fuel (N.of_nat nodes) ne (N.of_nat n) (flat_map (sedge n) row ++ v) M = deserial_edges fuel' (N.of_nat nodes) ne (N.of_nat n) v M'.
Proof.
  induction row as [|[[t w] r] row IH]; intros v M MV NM Hn Hr.
  - exists M. split; [auto|]. split; [auto|]. split; [unfold kept; auto 6|]. split; [intros f u; unfold addrow; cbn [sumN]; lia|].
    intros fuel Hf. exists fuel. auto.
  - destruct (Hr _ (or_introl eq_refl)) as [Ht Hne]. cbn [fst] in Ht, Hne.
    assert (Hr' : forall h, In h row -> fst (fst h) < nodes /\ (N.of_nat (fst (fst h)) < ne)%N) by (intros h H; apply Hr; right; auto).
    cbn [flat_map]. assert (SE : sedge n (t, w, r) = if n <? t then [N.of_nat t; w] else []) by reflexivity. rewrite SE.
    destruct (Nat.ltb_spec n t) as [L|L].
    + destruct (new_edge_sums M n t w MV L ltac:(lia)) as (M1 & E1 & MV1 & N1 & C1 & K1 & K2 & K3 & K4 & _ & K5).
      destruct (IH v M1 MV1 ltac:(congruence) Hn Hr') as (M' & MV' & N' & K & C & F).
      exists M'. split; [auto|]. split; [auto|]. split; [unfold kept in *; intuition congruence|]. split.
      { intros f u. rewrite C, C1. unfold addrow. cbn [sumN fst snd]. destruct (Nat.ltb_spec n t); lia. }
      intros fuel Hf. cbn [app length] in Hf. destruct fuel as [|fuel]; [lia|]. destruct (F fuel ltac:(lia)) as (fuel' & F1 & F2).
      exists fuel'. split; [auto|]. cbn [app deserial_edges]. destruct (N.ltb_spec (N.of_nat n) (N.of_nat nodes)); [|lia].
      destruct (N.leb_spec ne (N.of_nat t)); [lia|]. rewrite !Nnat.Nat2N.id, E1. exact F2.
    + destruct (IH v M MV NM Hn Hr') as (M' & MV' & N' & K & C & F).
      exists M'. split; [auto|]. split; [auto|]. split; [auto|]. split; [|exact F].
      intros f u. rewrite C. unfold addrow. cbn [sumN fst snd]. destruct (Nat.ltb_spec n t); lia.
Qed.

Lemma deserial_rows nodes ne rest : (ne + N.of_nat nodes < undefined_edge)%N -> forall rows k n M, mvalid M -> m_n M = nodes -> n < nodes -> k + length rows = nodes ->
  (forall row h, In row rows -> In h row -> fst (fst h) < nodes /\ (N.of_nat (fst (fst h)) < ne)%N) ->
  exists M', mvalid M' /\ m_n M' = nodes /\ kept M M' /\
    (forall f u, ls nodead (m_rows M') f u = (ls nodead (m_rows M) f u + bsum (length rows) (fun i => addrow (k + i) (nth i rows []) f u))%N) /\
    forall fuel, length (serial_rows ne k rows ++ undefined_edge :: rest) < fuel ->
      deserial_edges fuel (N.of_nat nodes) ne (N.of_nat n) (serial_rows ne k rows ++ undefined_edge :: rest) M = Some (rest, M').
Proof.
  intro HU. induction rows as [|row rows IH]; intros k n M MV NM Hn Hk Hr.
  - exists M. split; [auto|]. split; [auto|]. split; [unfold kept; auto 6|]. split; [intros f u; cbn; lia|].
    intros fuel Hf. destruct fuel as [|fuel]; [cbn in Hf; lia|]. cbn [serial_rows app deserial_edges].
    destruct (N.ltb_spec (N.of_nat n) (N.of_nat nodes)); [|lia]. destruct (N.leb_spec ne undefined_edge); [|lia].
    rewrite N.eqb_refl. reflexivity.
  - cbn [length] in Hk.
    destruct (deserial_row nodes ne k row (serial_rows ne (S k) rows ++ undefined_edge :: rest) M MV NM ltac:(lia)) as (M1 & MV1 & N1 & K1 & C1 & F1).
    { intros h Hh. apply (Hr row); [left; auto|auto]. }
    destruct (IH (S k) k M1 MV1 N1 ltac:(lia) ltac:(lia)) as (M' & MV' & N' & K' & C' & F').
    { intros row' h Hrow. apply Hr. right. auto. }
    exists M'. split; [auto|]. split; [auto|]. split; [unfold kept in *; intuition congruence|]. split.
    { intros f u. rewrite C', C1. cbn [length]. rewrite (bsum_shift_first (length rows)). cbn [nth]. rewrite Nat.add_0_r.
      rewrite (bsum_ext (length rows) (fun i => addrow (S k + i) (nth i rows []) f u) (fun i => addrow (k + S i) (nth i rows []) f u)).
      - lia.
      - intros i _. f_equal. lia. }
    intros fuel Hf. cbn [serial_rows]. rewrite serial_row_eq. cbn [serial_rows] in Hf. rewrite serial_row_eq in Hf.
    rewrite <- app_assoc in Hf |- *. cbn [app length] in Hf. destruct fuel as [|fuel]; [lia|]. cbn [app deserial_edges].
    destruct (N.ltb_spec (N.of_nat n) (N.of_nat nodes)); [|lia]. destruct (N.leb_spec ne (ne + N.of_nat k)); [|lia].
    destruct (N.eqb_spec (ne + N.of_nat k) undefined_edge); [lia|]. replace (ne + N.of_nat k - ne)%N with (N.of_nat k) by lia.
    destruct (F1 fuel ltac:(lia)) as (fuel' & L' & E'). rewrite E'. apply F'. auto.
Qed.

Lemma deserial_parts_ok : forall cnt i v xs part, length xs = cnt -> i + cnt = length part ->
  deserial_parts cnt i (map N.of_nat xs ++ v) part = Some (v, firstn i part ++ xs).
Proof.
  induction cnt as [|cnt IH]; intros i v xs part Lx Li.
  - destruct xs; [|discriminate]. cbn. rewrite app_nil_r, firstn_all2 by lia. reflexivity.
  - destruct xs as [|x xs]; [discriminate|]. injection Lx as Lx. cbn [map app deserial_parts]. destruct (Nat.ltb_spec i (length part)); [|lia].
    rewrite IH by (rewrite ?upd_length; lia). rewrite Nnat.Nat2N.id. f_equal. f_equal.
    rewrite (firstn_upd_S part i x) by auto. rewrite <- app_assoc. reflexivity.
Qed.

Lemma deserial_pos_ok n : forall cnt i v xs pos cont, length xs = cnt -> i + cnt = length pos -> length cont = n -> (forall x, In x xs -> x < n) ->
  (forall p x, p < n -> (In x (nth p cont []) <-> x < i /\ nth x pos 0 = p)) ->
  exists pos' cont', deserial_pos cnt i (map N.of_nat xs ++ v) pos cont = Some (pos', cont') /\ pos' = firstn i pos ++ xs /\ length cont' = n /\
    forall p x, p < n -> (In x (nth p cont' []) <-> x < length pos /\ nth x pos' 0 = p).
Proof.
  induction cnt as [|cnt IH]; intros i v xs pos cont Lx Li Lc Hx HG.
  - destruct xs; [|discriminate]. exists pos, cont. split; [reflexivity|]. split; [rewrite app_nil_r, firstn_all2 by lia; reflexivity|]. split; [auto|].
    rewrite Nat.add_0_r in Li. subst i. exact HG.
  - destruct xs as [|x xs]; [discriminate|]. injection Lx as Lx. cbn [map app deserial_pos]. destruct (Nat.ltb_spec i (length pos)); [|lia].
    pose proof (Hx x (or_introl eq_refl)) as Hxn. rewrite Nnat.Nat2N.id, Lc. destruct (Nat.ltb_spec x n); [|lia]. cbn [andb].
    destruct (IH (S i) v xs (upd pos i x) (upd cont x (nth x cont [] ++ [i]))) as (pos' & cont' & E & Ep & Lc' & HG').
    { auto. } { rewrite upd_length. lia. } { rewrite upd_length. auto. } { intros y Hy. apply Hx. right. auto. }
    { intros p y Hp. destruct (Nat.eq_dec p x) as [->|Np].
      - rewrite nth_upd_eq by lia. rewrite in_app_iff, HG by auto. cbn. rewrite nth_upd. destruct (Nat.ltb_spec i (length pos)); [|lia]. rewrite andb_true_r.
        destruct (Nat.eqb_spec y i) as [->|Ny]; [split; [auto with arith|right; left; auto]|]. split.
        + intros [[A B]|[A|[]]]; [split; [lia|auto]|congruence].
        + intros [A B]. left. split; [lia|auto].
      - rewrite nth_upd_neq by auto. rewrite HG by auto. rewrite nth_upd. destruct (Nat.ltb_spec i (length pos)); [|lia]. rewrite andb_true_r.
        destruct (Nat.eqb_spec y i) as [->|Ny]; [split; [lia|intros [_ A]; congruence]|]. split; intros [A B]; (split; [lia|auto]). }
    rewrite E. exists pos', cont'. split; [auto|]. split.
    { rewrite Ep, (firstn_upd_S pos i x) by auto. rewrite <- app_assoc. reflexivity. }
    split; [auto|]. rewrite upd_length in HG'. exact HG'.
Qed.

(** sums over rows determine the rows up to order *)
Definition pair_dec (x y : nat * N) : {x = y} + {x <> y}.
Proof. decide equality; [apply N.eq_dec|apply Nat.eq_dec]. Defined.
Definition find1 (p : nat * N) : nat -> N -> N := fun t w => if pair_dec (t, w) p then 1%N else 0%N.

Lemma count_ls R v p : N.of_nat (count_occ pair_dec (nth v (adj R) []) p) = ls nodead R (find1 p) v.
Proof.
  rewrite ls_nodead, adj_nth. induction (nth v R []) as [|[[t w] r] row IH]; [reflexivity|]. cbn [map count_occ sumN fst snd]. rewrite <- IH.
  unfold find1. destruct (pair_dec (t, w) p); lia.
Qed.

Lemma ls_perm R R' v : (forall f, ls nodead R f v = ls nodead R' f v) -> Permutation (nth v (adj R) []) (nth v (adj R') []).
Proof.
  intro H. apply (Permutation_count_occ pair_dec). intro p. apply Nnat.Nat2N.inj. rewrite !count_ls. apply H.
Qed.

(** the edges to larger nodes, entered at both ends, are all the edges *)
Lemma addrow_all R f u : valid_rows R -> u < length R ->
  bsum (length R) (fun i => addrow i (nth i R []) f u) = ls nodead R f u.
Proof.
  intros V Hu.
  assert (A : bsum (length R) (fun i => addrow i (nth i R []) f u) =
              (tot R (fun i t w => if Nat.ltb i t then if Nat.eqb u i then f t w else 0 else 0)
               + tot R (fun i t w => if Nat.ltb i t then if Nat.eqb u t then f i w else 0 else 0))%N).
  { unfold tot. rewrite <- bsum_add. apply bsum_ext. intros i Hi. rewrite !ls_nodead. unfold addrow. rewrite <- sumN_add. apply sumN_ext.
    intros h _. unfold pairf. destruct (i <? fst (fst h)); lia. }
  rewrite A, (tot_swap R (fun i t w => if Nat.ltb i t then if Nat.eqb u t then f i w else 0 else 0)%N V). rewrite <- (tot_at R f u Hu).
  unfold tot. rewrite <- bsum_add. apply bsum_ext. intros i Hi. unfold ls. rewrite <- bsum_add. apply bsum_ext. intros e He. unfold val, nodead.
  destruct (slot R i e) as [[[t w] r]|] eqn:S; [|reflexivity]. destruct (V i e t w r S) as [_ [Nt _]].
  destruct (Nat.ltb_spec i t), (Nat.ltb_spec t i), (Nat.eqb_spec u i), (Nat.eqb_spec i u); try lia.
Qed.

(** length of the written vector *)
Lemma serial_len ne : forall rows k, N.of_nat (length (serial_rows ne k rows)) =
  (N.of_nat (length rows) + 2 * bsum (length rows) (fun i => sumN (fun h : half => if Nat.ltb (k + i) (fst (fst h)) then 1 else 0) (nth i rows [])))%N.
Proof.
  induction rows as [|row rows IH]; intro k; [reflexivity|]. cbn [serial_rows]. rewrite app_length, serial_row_eq. cbn [length].
  rewrite (bsum_shift_first (length rows)). cbn [nth]. rewrite Nat.add_0_r.
  rewrite (bsum_ext (length rows) (fun i => sumN (fun h : half => if Nat.ltb (k + S i) (fst (fst h)) then 1%N else 0%N) (nth i rows []))
     (fun i => sumN (fun h : half => if Nat.ltb (S k + i) (fst (fst h)) then 1%N else 0%N) (nth i rows []))).
  2: { intros i _. replace (k + S i) with (S k + i) by lia. reflexivity. }
  assert (F : N.of_nat (length (flat_map (sedge k) row)) = (2 * sumN (fun h : half => if Nat.ltb k (fst (fst h)) then 1 else 0) row)%N).
  { clear. induction row as [|h row IH]; [reflexivity|]. cbn [flat_map sumN]. rewrite app_length. unfold sedge at 1. destruct (k <? fst (fst h)); cbn [length]; lia. }
  specialize (IH (S k)). lia.
Qed.

Lemma half_count R : valid_rows R ->
  (2 * bsum (length R) (fun i => sumN (fun h : half => if Nat.ltb i (fst (fst h)) then 1 else 0) (nth i R [])) = bsum (length R) (ls nodead R fc))%N.
Proof.
  intro V. set (g := fun i t (_ : N) => if Nat.ltb i t then 1%N else 0%N).
  assert (A : bsum (length R) (fun i => sumN (fun h : half => if Nat.ltb i (fst (fst h)) then 1%N else 0%N) (nth i R [])) = tot R g).
  { unfold tot. apply bsum_ext. intros i _. rewrite ls_nodead. reflexivity. }
  rewrite A. assert (B : (tot R g + tot R (fun u t w => g t u w) = bsum (length R) (ls nodead R fc))%N).
  { unfold tot. rewrite <- bsum_add. apply bsum_ext. intros i Hi. unfold ls. rewrite <- bsum_add. apply bsum_ext. intros e He. unfold val, nodead.
    destruct (slot R i e) as [[[t w] r]|] eqn:S; [|reflexivity]. destruct (V i e t w r S) as [_ [Nt _]]. unfold g, fc.
    destruct (Nat.ltb_spec i t), (Nat.ltb_spec t i); lia. }
  rewrite <- (tot_swap R g V) in B. lia.
Qed.

Theorem serial_roundtrip M : mvalid M -> 0 < m_n M -> length (m_part M) = m_n M -> length (m_pos M) = m_orig M -> m_n M <= m_orig M ->
  (forall x, x < m_orig M -> nth x (m_pos M) 0 < m_n M) ->
  (forall v e t w r, slot (m_rows M) v e = Some (t, w, r) -> (N.of_nat t < m_ne M)%N) -> (m_ne M + N.of_nat (m_n M) < undefined_edge)%N ->
  exists s M', serialize M = Some s /\ deserialize s = Some M' /\ mvalid M' /\ m_n M' = m_n M /\
    (forall v, Permutation (nth v (adj (m_rows M)) []) (nth v (adj (m_rows M')) [])) /\
    m_deg M' = m_deg M /\ m_ne M' = m_ne M /\ m_part M' = m_part M /\ m_pos M' = m_pos M /\ m_pc M' = m_pc M /\ m_orig M' = m_orig M /\
    groups_exact (m_n M') (m_cont M') (m_pos M').
Proof.
  intros MV Hn LP LO Hno Hpos Htgt HU. pose proof MV as [V [DG CN]]. apply deg_ls in DG. destruct DG as [LD DG]. apply cnt_ls in CN.
  set (R := m_rows M) in *. set (n := m_n M) in *. assert (NR : length R = n) by reflexivity.
  unfold serialize. fold R n. set (body := serial_rows (m_ne M) 0 R).
  set (tail := map N.of_nat (m_part M) ++ map N.of_nat (m_pos M)).
  assert (LB : length body = n + N.to_nat (m_ne M)).
  { apply Nnat.Nat2N.inj. unfold body. rewrite serial_len. cbn [Nat.add].
    rewrite half_count by auto. rewrite <- CN, NR. lia. }
  set (out := [N.of_nat n; m_ne M; N.of_nat (m_pc M); N.of_nat (m_orig M)] ++ body ++ [undefined_edge] ++ tail).
  assert (LOut : length out = 5 + 2 * n + N.to_nat (m_ne M) + m_orig M).
  { unfold out, tail. rewrite !app_length, !map_length. cbn [length]. lia. }
  rewrite LOut, Nat.leb_refl, Nat.sub_diag. cbn [repeat]. rewrite app_nil_r.
  assert (MV0 : mvalid (start_construction n) /\ forall f u, ls nodead (m_rows (start_construction n)) f u = 0%N).
  { assert (RR : forall v, nth v (repeat (@nil half) n) [] = []) by (intro v; apply nth_repeat).
    unfold mvalid, start_construction. cbn [m_rows m_deg m_ne]. split; [split; [|split]|].
    - intros v e t w r H. rewrite RR in H. destruct e; discriminate.
    - split; [rewrite !repeat_length; auto|]. intros v Hv. rewrite RR. cbn. rewrite nth_repeat. reflexivity.
    - unfold count_exact. symmetry. apply sumN_zero. intros row Hr. apply repeat_spec in Hr. subst row. reflexivity.
    - intros f u. rewrite ls_nodead, RR. reflexivity. }
  destruct MV0 as [MV0 L0].
  destruct (deserial_rows n (m_ne M) tail HU R 0 0 (start_construction n) MV0) as (M1 & MV1 & N1 & K1 & C1 & F1); auto.
  { unfold m_n. cbn. apply repeat_length. }
  { intros row h Hrow Hh. apply In_nth with (d := []) in Hrow. destruct Hrow as [u [Hu <-]]. apply In_nth_error in Hh. destruct Hh as [e He].
    destruct h as [[t w] r]. cbn. split; [destruct (V u e t w r He) as [A _]; auto|apply (Htgt u e t w r He)]. }
  destruct K1 as [K1 [K2 [K3 [K4 K5]]]].
  destruct (deserial_pos_ok n (m_orig M) 0 [] (m_pos M) (m_pos M1 ++ repeat 0 (m_orig M - length (m_pos M1))) (repeat [] n)) as (pos' & cont' & EP & Epos & Lcont & GP).
  { auto. } { rewrite K3. cbn. rewrite app_length, repeat_length, seq_length. lia. } { apply repeat_length. }
  { intros x Hx. apply In_nth with (d := 0) in Hx. destruct Hx as [i [Hi <-]]. apply Hpos. lia. }
  { intros p x Hp. rewrite nth_repeat. split; [intros []|lia]. }
  cbn [firstn app] in Epos. subst pos'. rewrite app_nil_r in EP.
  set (M' := m_finish (mk_mg (m_rows M1) (m_deg M1) (m_part M) (m_cut M1) (m_pos M) cont' (m_last M1) (m_ne M1) (m_pc M) (m_orig M))).
  exists out, M'. split; [reflexivity|].
  assert (LS : forall f u, u < n -> ls nodead (m_rows M1) f u = ls nodead R f u).
  { intros f u Hu. rewrite C1, L0, N.add_0_l. apply addrow_all; auto. }
  split.
  { unfold deserialize, out. cbn [app]. rewrite !Nnat.Nat2N.id.
    change (N.of_nat 0) with 0%N in F1. fold body in F1.
    match goal with |- context [deserial_edges ?k _ _ _ _ _] => rewrite (F1 k) end.
    2: { cbn [length]. lia. }
    assert (EQ : deserial_parts n 0 tail (m_part M1) = Some (map N.of_nat (m_pos M), m_part M)).
    { unfold tail. rewrite deserial_parts_ok; [reflexivity|auto|]. rewrite K1. cbn. rewrite repeat_length. lia. }
    rewrite EQ, EP. reflexivity. }
  destruct MV1 as [V1 [DG1 CN1]]. split; [split; [exact V1|split; [exact DG1|exact CN1]]|]. split; [exact N1|].
  apply deg_ls in DG1. destruct DG1 as [LD1 DG1]. apply cnt_ls in CN1. unfold m_n in N1.
  split.
  { intro v. cbn [M' m_finish m_rows]. destruct (Nat.lt_ge_cases v n) as [Hv|Hv].
    - apply ls_perm. intro f. symmetry. apply LS. auto.
    - rewrite !nth_overflow by (rewrite adj_length; lia). constructor. }
  split.
  { cbn [M' m_finish m_deg]. apply nth_ext with (d := 0%N) (d' := 0%N); [lia|]. intros u Hu. rewrite DG1, DG by lia. apply LS. lia. }
  split.
  { cbn [M' m_finish m_ne]. rewrite CN1, CN, N1, NR. apply bsum_ext. intros u Hu. apply LS. auto. }
  repeat (split; [reflexivity|]). change (m_n M') with (length (m_rows M1)). cbn [M' m_finish m_cont m_pos]. rewrite N1. split; [lia|].
  intros p x Hp. rewrite GP by auto. rewrite K3. cbn. rewrite app_length, repeat_length, seq_length, LO. split; intros [A B]; (split; [lia|auto]).
Qed.
