(* P_LocalSearch2.v - proofs about the flow part of the local search. *)
From Verif Require Import SpecMulti SpecFlow P_Cut P_Mutable P_MutableIO P_Multi P_Kernel P_Dynamic M_LocalSearch P_LocalSearch.
From Coq Require Import Permutation.

Lemma fold_opt_app {A B} (f : A -> B -> option A) l1 l2 a :
  fold_opt f (l1 ++ l2) a = match fold_opt f l1 a with Some a' => fold_opt f l2 a' | None => None end.
Proof. revert a; induction l1 as [|x l1 IH]; intro a; cbn; [reflexivity|]. destruct (f a x); auto. Qed.

(** ** sums over edges *)
Definition etot (R : list (list half)) (g : nat -> nat -> N -> N) : N :=
  bsum (length R) (fun u => sumN (fun h : half => g u (fst (fst h)) (snd (fst h))) (nth u R [])).

Lemma etot_wt R (p : nat -> nat -> bool) : valid_rows R ->
  etot R (fun u t w => if p u t then w else 0%N) = bsum (length R) (fun u => bsum (length R) (fun t => if p u t then wt (adj R) u t else 0%N)).
Proof.
  intro V. unfold etot. apply bsum_ext. intros u Hu.
  transitivity (bsum (length R) (fun t => sumN (fun h : half => if Nat.eqb t (fst (fst h)) then (if p u t then snd (fst h) else 0%N) else 0%N) (nth u R []))).
  - unfold bsum. rewrite sumN_swap. apply sumN_ext. intros [[t w] r] I. cbn [fst snd]. apply In_nth_error in I. destruct I as [e I]. destruct (V u e t w r I) as [T _].
    symmetry. exact (bsum_single (length R) (fun v => if p u v then w else 0%N) t T).
  - apply bsum_ext. intros t Ht. unfold wt. rewrite adj_nth, sumN_filter, sumN_map. cbn [fst snd]. destruct (p u t).
    + apply sumN_ext. intros h _. rewrite Nat.eqb_sym. reflexivity.
    + apply sumN_zero. intros h _. destruct (t =? fst (fst h)); reflexivity.
Qed.

(** every unordered pair is selected in exactly one direction *)
Lemma select_once n (sel act : nat -> nat -> bool) (A : nat -> nat -> N) :
  (forall u v, u < n -> v < n -> A u v = A v u) -> (forall u, sel u u = false) ->
  (forall u v, u < v -> v < n -> act u v = xorb (sel u v) (sel v u) /\ sel u v && sel v u = false) ->
  bsum n (fun u => bsum n (fun v => if sel u v then A u v else 0%N)) = bsum n (fun u => bsum n (fun v => if (u <? v) && act u v then A u v else 0%N)).
Proof.
  intros SA NI H.
  transitivity (bsum n (fun u => bsum n (fun v => if Nat.ltb u v && sel u v then A u v else 0)) + bsum n (fun u => bsum n (fun v => if Nat.ltb v u && sel u v then A u v else 0)))%N.
  - rewrite <- bsum_add. apply bsum_ext. intros u Hu. rewrite <- bsum_add. apply bsum_ext. intros v Hv. destruct (sel u v) eqn:E; [|rewrite !andb_false_r; reflexivity]. rewrite !andb_true_r.
    destruct (lt_eq_lt_dec u v) as [[L|L]|L].
    + rewrite (proj2 (Nat.ltb_lt u v) L), (proj2 (Nat.ltb_ge v u)) by lia. lia.
    + rewrite L, NI in E. discriminate E.
    + rewrite (proj2 (Nat.ltb_lt v u) L), (proj2 (Nat.ltb_ge u v)) by lia. lia.
  - rewrite (bsum_swap n n (fun u v => if (v <? u) && sel u v then A u v else 0%N)). rewrite <- bsum_add. apply bsum_ext. intros u Hu. rewrite <- bsum_add. apply bsum_ext. intros v Hv.
    destruct (Nat.ltb_spec u v) as [L|L]; cbn [andb]; [|reflexivity]. destruct (H u v L Hv) as [E1 E2]. rewrite E1. rewrite (SA v u Hv Hu).
    destruct (sel u v), (sel v u); cbn in *; try discriminate E2; lia.
Qed.

(** ** cuts of a growing graph *)
Definition gcut (G : mg) (S : nat -> bool) : N := cutw (m_n G) (wt (adj (m_rows G))) S.
Definition dif (S : nat -> bool) (x y : nat) (w : N) : N := if Bool.eqb (S x) (S y) then 0%N else w.

Lemma dif_sym S x y w : dif S x y w = dif S y x w.
Proof. unfold dif. destruct (S x), (S y); reflexivity. Qed.

Lemma start_cut k : mvalid (start_construction k) /\ m_n (start_construction k) = k /\ forall S, gcut (start_construction k) S = 0%N.
Proof.
  assert (R : forall v, nth v (repeat (@nil half) k) [] = []) by (intro v; apply nth_repeat).
  split; [unfold mvalid, start_construction; cbn [m_rows m_deg m_ne]; split; [|split]|split].
  - intros v e t w r H. rewrite R in H. destruct e; discriminate H.
  - split; [rewrite !repeat_length; auto|]. intros v Hv. rewrite R. cbn. rewrite nth_repeat. reflexivity.
  - unfold count_exact. symmetry. apply sumN_zero. intros row Hr. apply repeat_spec in Hr. subst row. reflexivity.
  - unfold m_n. cbn. apply repeat_length.
  - intro S. unfold gcut, cutw. apply bsum_zero. intros a _. apply bsum_zero. intros b _. rewrite wt_ls, ls_nodead. cbn [start_construction m_rows]. rewrite R. destruct (_ && _); reflexivity.
Qed.

Lemma order_cut G s t w : mvalid G -> s < m_n G -> t < m_n G -> s <> t ->
  exists G', new_edge_order G s t w = Some G' /\ mvalid G' /\ m_n G' = m_n G /\ forall S, gcut G' S = (gcut G S + dif S s t w)%N.
Proof.
  intros MV Hs Ht N.
  assert (X : forall s t, s < t -> t < m_n G -> exists G', m_new_edge G s t w = Some G' /\ mvalid G' /\ m_n G' = m_n G /\ forall S, gcut G' S = (gcut G S + dif S s t w)%N).
  { clear s t Hs Ht N. intros s t L Ht. destruct (new_edge_ok G s t w MV L Ht) as (G' & E & MV' & N' & WS & _). exists G'. split; [auto|]. split; [auto|]. split; [auto|].
    intro S. unfold gcut. rewrite N'. pose proof (cutw_wstep (m_n G) _ _ s t 0 w S ltac:(lia) Ht ltac:(lia) WS) as C. unfold dif. destruct (Bool.eqb (S s) (S t)); lia. }
  unfold new_edge_order. destruct (Nat.ltb_spec s t) as [L|L]; [apply X; auto|]. destruct (Nat.ltb_spec t s) as [L2|L2]; [|lia].
  destruct (X t s L2 Hs) as (G' & E & MV' & N' & C). exists G'. split; [auto|]. split; [auto|]. split; [auto|]. intro S. rewrite C, dif_sym. reflexivity.
Qed.

Lemma add_fixed_ok c : forall es G, mvalid G -> c < m_n G -> (forall k w, In (k, w) es -> k < m_n G /\ k <> c) ->
  exists G', fold_opt (add_fixed c) es G = Some G' /\ mvalid G' /\ m_n G' = m_n G /\
    forall S, gcut G' S = (gcut G S + sumN (fun e => dif S (fst e) c (snd e)) es)%N.
Proof.
  induction es as [|[k w] es IH]; intros G MV Hc H; cbn [fold_opt].
  - exists G. split; [auto|]. split; [auto|]. split; [auto|]. intro S. cbn. lia.
  - destruct (H k w (or_introl eq_refl)) as [K1 K2]. unfold add_fixed at 1. cbn [fst snd].
    destruct (order_cut G k c w MV K1 Hc K2) as (G1 & E & MV1 & N1 & C1). rewrite E.
    destruct (IH G1 MV1 ltac:(lia)) as (G2 & E2 & MV2 & N2 & C2). { intros k' w' I. rewrite N1. eapply H. right. eauto. }
    exists G2. split; [auto|]. split; [auto|]. split; [lia|]. intro S. rewrite C2, C1. cbn [sumN fst snd]. lia.
Qed.

Lemma map_add_ok (f : nat -> N -> N) (F : forall k x y, f k (x + y)%N = (f k x + f k y)%N) k w : forall m,
  sumN (fun e => f (fst e) (snd e)) (map_add m k w) = (sumN (fun e => f (fst e) (snd e)) m + f k w)%N.
Proof.
  induction m as [|[k' w'] m IH]; cbn [map_add]; [cbn; lia|]. destruct (Nat.eqb_spec k' k) as [Q|Q]; cbn [sumN fst snd].
  - rewrite F, Q. lia.
  - rewrite IH. lia.
Qed.
Lemma map_add_keys k w : forall m k' w', In (k', w') (map_add m k w) -> k' = k \/ exists w0, In (k', w0) m.
Proof.
  induction m as [|[k0 w0] m IH]; cbn [map_add]; intros k' w' I.
  - destruct I as [I|[]]. injection I as <- _. auto.
  - destruct (Nat.eqb_spec k0 k) as [Q|Q].
    + destruct I as [I|I]; [injection I as <- _; auto|right; exists w'; right; auto].
    + destruct I as [I|I]; [injection I as <- _; right; exists w0; left; auto|]. destruct (IH k' w' I) as [X|[w1 X]]; [auto|right; exists w1; right; auto].
Qed.

Section Pair.
Context (R : list (list half)) (V : valid_rows R) (fixed : list bool) (sol : list nat) (a b : nat).
Context (LS : length sol = length R) (AB : a <> b).
Let n := length R.
Let W := wt (adj R).
Let f0 := block_of sol.
Let inp (v : nat) : bool := in_pair sol a b v.
Let fx (v : nat) : bool := fixed_at fixed v.

(** ** the numbering *)
Record mapped (k : nat) (m : list nat) (id : nat) : Prop := {
  mp_len : length m = n;
  mp_id : 2 <= id;
  mp_fix : forall v, v < k -> inp v = true -> fx v = true -> nth v m 0 = if Nat.eqb (f0 v) a then 0 else 1;
  mp_free : forall v, v < k -> inp v = true -> fx v = false -> 2 <= nth v m 0 < id;
  mp_mono : forall u v, u < v -> v < k -> inp u = true -> inp v = true -> fx u = false -> fx v = false -> nth u m 0 < nth v m 0 }.

Lemma block_map_ok : forall c k m id, mapped k m id -> k + c = n ->
  exists m' id', block_map fixed sol a b (seq k c) m id = (m', id') /\ mapped n m' id'.
Proof.
  induction c as [|c IH]; intros k m id M E; cbn [seq block_map].
  - exists m, id. split; [auto|]. replace n with k by lia. exact M.
  - fold (inp k) (fx k). destruct M as [M1 M2 M3 M4 M5]. destruct (inp k) eqn:IK; cbn [negb].
    2:{ apply (IH (S k)); [|lia]. constructor; auto.
        - intros v Hv I F. apply M3; auto. destruct (Nat.eq_dec v k); [congruence|lia].
        - intros v Hv I F. apply M4; auto. destruct (Nat.eq_dec v k); [congruence|lia].
        - intros u v Huv Hv Iu Iv Fu Fv. apply M5; auto. destruct (Nat.eq_dec v k); [congruence|lia]. }
    destruct (fx k) eqn:FK; apply (IH (S k)); try lia; constructor; try (rewrite upd_length; auto; fail); try lia.
    + intros v Hv I F. destruct (Nat.eq_dec v k) as [Q|Q]; [subst v; apply nth_upd_eq; lia|]. rewrite nth_upd_neq by auto. apply M3; auto. lia.
    + intros v Hv I F. destruct (Nat.eq_dec v k) as [Q|Q]; [congruence|]. rewrite nth_upd_neq by auto. apply M4; auto. lia.
    + intros u v Huv Hv Iu Iv Fu Fv. destruct (Nat.eq_dec v k) as [Q|Q]; [congruence|]. rewrite !nth_upd_neq by lia. apply M5; auto. lia.
    + intros v Hv I F. destruct (Nat.eq_dec v k) as [Q|Q]; [congruence|]. rewrite nth_upd_neq by auto. apply M3; auto. lia.
    + intros v Hv I F. destruct (Nat.eq_dec v k) as [Q|Q]; [subst v; rewrite nth_upd_eq by lia; lia|]. rewrite nth_upd_neq by auto. pose proof (M4 v ltac:(lia) I F). lia.
    + intros u v Huv Hv Iu Iv Fu Fv. rewrite (nth_upd_neq m k id u) by lia. destruct (Nat.eq_dec v k) as [Q|Q].
      * subst v. rewrite nth_upd_eq by lia. pose proof (M4 u ltac:(lia) Iu Fu). lia.
      * rewrite nth_upd_neq by lia. apply M5; auto. lia.
Qed.

Section Numbered.
Context (m : list nat) (id : nat) (MP : mapped n m id).

Definition sel (u v : nat) : bool := inp u && inp v && (nth u m 0 <? nth v m 0) && (2 <=? nth v m 0).
Definition act (u v : nat) : bool := inp u && inp v && negb (fx u && fx v).

Lemma id_range v : v < n -> inp v = true -> nth v m 0 < id.
Proof.
  intros Hv I. destruct (fx v) eqn:F; [|apply (mp_free _ _ _ MP v Hv I F)]. rewrite (mp_fix _ _ _ MP v Hv I F). pose proof (mp_id _ _ _ MP). destruct (_ =? _); lia.
Qed.

Lemma sel_act u v : u < v -> v < n -> act u v = xorb (sel u v) (sel v u) /\ sel u v && sel v u = false.
Proof.
  intros L Hv. unfold act, sel. destruct (inp u) eqn:Iu; [|cbn [andb]; rewrite !andb_false_r; auto]. destruct (inp v) eqn:Iv; [|cbn [andb]; auto]. cbn [andb].
  assert (Hu : u < n) by lia.
  destruct (fx u) eqn:Fu, (fx v) eqn:Fv; cbn [andb negb].
  - rewrite (mp_fix _ _ _ MP u Hu Iu Fu), (mp_fix _ _ _ MP v Hv Iv Fv). destruct (f0 u =? a), (f0 v =? a); auto.
  - pose proof (mp_fix _ _ _ MP u Hu Iu Fu) as X. pose proof (mp_free _ _ _ MP v Hv Iv Fv) as Y.
    destruct (Nat.ltb_spec (nth u m 0) (nth v m 0)); [|destruct (f0 u =? a); lia]. destruct (Nat.leb_spec 2 (nth v m 0)); [|lia].
    destruct (Nat.ltb_spec (nth v m 0) (nth u m 0)); [lia|]. auto.
  - pose proof (mp_free _ _ _ MP u Hu Iu Fu) as X. pose proof (mp_fix _ _ _ MP v Hv Iv Fv) as Y.
    destruct (Nat.ltb_spec (nth u m 0) (nth v m 0)); [destruct (f0 v =? a); lia|].
    destruct (Nat.ltb_spec (nth v m 0) (nth u m 0)); [|destruct (f0 v =? a); lia]. destruct (Nat.leb_spec 2 (nth u m 0)); [|lia]. auto.
  - pose proof (mp_free _ _ _ MP u Hu Iu Fu) as X. pose proof (mp_free _ _ _ MP v Hv Iv Fv) as Y. pose proof (mp_mono _ _ _ MP u v L Hv Iu Iv Fu Fv).
    destruct (Nat.ltb_spec (nth u m 0) (nth v m 0)); [|lia]. destruct (Nat.leb_spec 2 (nth v m 0)); [|lia]. destruct (Nat.ltb_spec (nth v m 0) (nth u m 0)); [lia|]. auto.
Qed.

(** ** the collected edges *)
Definition qcut (s : fbs) (S : nat -> bool) : N :=
  (gcut (b_G s) S + sumN (fun e => dif S (fst e) 0 (snd e)) (b_e0 s) + sumN (fun e => dif S (fst e) 1 (snd e)) (b_e1 s))%N.
Record coll (s : fbs) : Prop := {
  cl_v : mvalid (b_G s);
  cl_n : m_n (b_G s) = id;
  cl_0 : forall k w, In (k, w) (b_e0 s) -> 2 <= k < id;
  cl_1 : forall k w, In (k, w) (b_e1 s) -> 2 <= k < id }.

Lemma dif_lin S c : forall k x y, dif S k c (x + y)%N = (dif S k c x + dif S k c y)%N.
Proof. intros k x y. unfold dif. destruct (Bool.eqb _ _); lia. Qed.

Lemma pair_edge_ok s u t w r : coll s -> u < n -> inp u = true -> In (t, w, r) (nth u R []) ->
  exists s', pair_edge sol m a b u s (t, w, r) = Some s' /\ coll s' /\
    b_w s' = (b_w s + if sel u t && negb (Nat.eqb (f0 u) (f0 t)) then w else 0)%N /\
    forall S, qcut s' S = (qcut s S + if sel u t then dif S (nth u m 0%nat) (nth t m 0%nat) w else 0)%N.
Proof.
  intros [C1 C2 C3 C4] Hu Iu I. destruct (row_target R V u t w r I) as [Ht Nt]. unfold pair_edge. fold (inp t).
  change (block_of sol t) with (f0 t). change (block_of sol u) with (f0 u).
  destruct (sel u t) eqn:SE; cbn [andb].
  - unfold sel in SE. rewrite Iu in SE. cbn [andb] in SE. destruct (inp t) eqn:It; [|discriminate SE]. cbn [andb] in SE. apply andb_true_iff in SE. destruct SE as [S1 S2]. apply Nat.ltb_lt in S1. apply Nat.leb_le in S2.
    cbn [negb orb]. destruct (Nat.leb_spec (nth t m 0) (nth u m 0)); [lia|]. destruct (Nat.ltb_spec (nth t m 0) 2); [lia|]. cbn [orb].
    pose proof (id_range t Ht It) as Rt.
    assert (SW : (if f0 t =? f0 u then b_w s else (b_w s + w)%N) = (b_w s + (if negb (Nat.eqb (f0 u) (f0 t)) then w else 0))%N) by (rewrite (Nat.eqb_sym (f0 u)); destruct (f0 t =? f0 u); cbn; lia).
    destruct (Nat.ltb_spec (nth u m 0) 2) as [L|L]; [destruct (Nat.eqb_spec (nth u m 0) 0) as [Z|Z]|].
    + eexists. split; [reflexivity|]. split; [|split; [exact SW|]].
      * constructor; cbn; auto. intros k w' X. destruct (map_add_keys _ _ _ _ _ X) as [->|[w0 Y]]; [lia|eapply C3; eauto].
      * intro S. unfold qcut. cbn [b_G b_e0 b_e1]. rewrite (map_add_ok (fun k x => dif S k 0 x) (dif_lin S 0)). rewrite Z, (dif_sym S 0). lia.
    + assert (Z1 : nth u m 0 = 1) by lia. eexists. split; [reflexivity|]. split; [|split; [exact SW|]].
      * constructor; cbn; auto. intros k w' X. destruct (map_add_keys _ _ _ _ _ X) as [->|[w0 Y]]; [lia|eapply C4; eauto].
      * intro S. unfold qcut. cbn [b_G b_e0 b_e1]. rewrite (map_add_ok (fun k x => dif S k 1 x) (dif_lin S 1)). rewrite Z1, (dif_sym S 1). lia.
    + destruct (order_cut (b_G s) (nth u m 0) (nth t m 0) w C1 ltac:(lia) ltac:(lia) ltac:(lia)) as (G' & E & MV' & N' & C). rewrite E. cbn [option_map].
      eexists. split; [reflexivity|]. split; [|split; [exact SW|]].
      * constructor; cbn; auto. lia.
      * intro S. unfold qcut. cbn [b_G b_e0 b_e1]. rewrite C. lia.
  - assert (X : negb (inp t) || (nth t m 0 <=? nth u m 0) || (nth t m 0 <? 2) = true).
    { unfold sel in SE. rewrite Iu in SE. cbn [andb] in SE. destruct (inp t); [|reflexivity]. cbn [andb negb orb] in *.
      destruct (Nat.ltb_spec (nth u m 0) (nth t m 0)), (Nat.leb_spec 2 (nth t m 0)), (Nat.leb_spec (nth t m 0) (nth u m 0)), (Nat.ltb_spec (nth t m 0) 2); try reflexivity; try discriminate SE; lia. }
    rewrite X. exists s. split; [reflexivity|]. split; [constructor; auto|]. split; [lia|]. intro S. lia.
Qed.

Lemma pair_row_ok u : u < n -> inp u = true -> forall row s, (forall h, In h row -> In h (nth u R [])) -> coll s ->
  exists s', fold_opt (pair_edge sol m a b u) row s = Some s' /\ coll s' /\
    b_w s' = (b_w s + sumN (fun h : half => if sel u (fst (fst h)) && negb (Nat.eqb (f0 u) (f0 (fst (fst h)))) then snd (fst h) else 0) row)%N /\
    forall S, qcut s' S = (qcut s S + sumN (fun h : half => if sel u (fst (fst h)) then dif S (nth u m 0%nat) (nth (fst (fst h)) m 0%nat) (snd (fst h)) else 0) row)%N.
Proof.
  intros Hu Iu. induction row as [|[[t w] r] row IH]; intros s H C; cbn [fold_opt].
  - exists s. split; [auto|]. split; [auto|]. cbn. split; [lia|intro; lia].
  - destruct (pair_edge_ok s u t w r C Hu Iu (H _ (or_introl eq_refl))) as (s1 & E & C1 & B1 & Q1). rewrite E.
    destruct (IH s1 ltac:(intros h I; apply H; right; auto) C1) as (s2 & E2 & C2 & B2 & Q2). exists s2. split; [auto|]. split; [auto|].
    cbn [sumN fst snd]. split; [rewrite B2, B1; lia|]. intro S. rewrite Q2, Q1. lia.
Qed.

Lemma pair_nodes_ok : forall us s, (forall u, In u us -> u < n) -> coll s ->
  exists s', fold_opt (pair_node R sol m a b) us s = Some s' /\ coll s' /\
    b_w s' = (b_w s + sumN (fun u => sumN (fun h : half => if sel u (fst (fst h)) && negb (Nat.eqb (f0 u) (f0 (fst (fst h)))) then snd (fst h) else 0) (nth u R [])) us)%N /\
    forall S, qcut s' S = (qcut s S + sumN (fun u => sumN (fun h : half => if sel u (fst (fst h)) then dif S (nth u m 0%nat) (nth (fst (fst h)) m 0%nat) (snd (fst h)) else 0) (nth u R [])) us)%N.
Proof.
  induction us as [|u us IH]; intros s H C; cbn [fold_opt].
  - exists s. split; [auto|]. split; [auto|]. cbn. split; [lia|intro; lia].
  - unfold pair_node at 1. fold (inp u). destruct (inp u) eqn:Iu; cbn [negb].
    + destruct (pair_row_ok u (H u (or_introl eq_refl)) Iu (nth u R []) s ltac:(auto) C) as (s1 & E & C1 & B1 & Q1). rewrite E.
      destruct (IH s1 ltac:(intros; apply H; right; auto) C1) as (s2 & E2 & C2 & B2 & Q2). exists s2. split; [auto|]. split; [auto|].
      cbn [sumN]. split; [rewrite B2, B1; lia|]. intro S. rewrite Q2, Q1. lia.
    + destruct (IH s ltac:(intros; apply H; right; auto) C) as (s2 & E2 & C2 & B2 & Q2). exists s2. split; [auto|]. split; [auto|].
      assert (Z : forall t, sel u t = false) by (intro t; unfold sel; rewrite Iu; reflexivity).
      cbn [sumN]. split; [rewrite B2|intro S; rewrite Q2]; rewrite (sumN_zero _ (nth u R [])) by (intros h _; rewrite Z; reflexivity); lia.
Qed.

(** ** the cost of an assignment that differs from the solution on the free vertices of the two blocks only *)
Definition compat (g : nat -> nat) : Prop :=
  (forall v, v < n -> inp v = false -> g v = f0 v) /\ (forall v, v < n -> fx v = true -> g v = f0 v) /\
  (forall v, v < n -> inp v = true -> g v = a \/ g v = b).
Definition pcost (g : nat -> nat) : N := bsum n (fun u => bsum n (fun v => if sel u v && negb (Nat.eqb (g u) (g v)) then W u v else 0%N)).
Definition rest : N := bsum n (fun u => bsum n (fun v => if (u <? v) && negb (act u v) && negb (Nat.eqb (f0 u) (f0 v)) then W u v else 0%N)).

Lemma compat_self : compat f0.
Proof.
  split; [auto|]. split; [auto|]. intros v _ I. unfold inp, in_pair in I. apply orb_true_iff in I. rewrite !Nat.eqb_eq in I. exact I.
Qed.

Lemma cost_split g : compat g -> mtcost n W g = (pcost g + rest)%N.
Proof.
  intros (G1 & G2 & G3). unfold pcost, rest.
  transitivity (bsum n (fun u => bsum n (fun v => if Nat.ltb u v && act u v then (if Nat.eqb (g u) (g v) then 0%N else W u v) else 0%N)) +
    bsum n (fun u => bsum n (fun v => if Nat.ltb u v && negb (act u v) && negb (Nat.eqb (f0 u) (f0 v)) then W u v else 0%N)))%N.
  - unfold mtcost. rewrite <- bsum_add. apply bsum_ext. intros u Hu. rewrite <- bsum_add. apply bsum_ext. intros v Hv.
    destruct (Nat.ltb u v); cbn [andb]; [|reflexivity]. destruct (act u v) eqn:A; cbn [negb andb]; [destruct (g u =? g v); cbn; lia|].
    assert (E : (g u =? g v) = (f0 u =? f0 v)); [|rewrite E; destruct (f0 u =? f0 v); cbn; lia].
    unfold act in A. destruct (inp u) eqn:Iu.
    + destruct (inp v) eqn:Iv.
      * cbn [andb] in A. apply negb_false_iff in A. apply andb_true_iff in A. destruct A as [A1 A2]. rewrite (G2 u), (G2 v); auto.
      * rewrite (G1 v) by auto. unfold inp, in_pair in Iu, Iv. apply orb_false_iff in Iv. destruct Iv as [V1 V2]. apply orb_true_iff in Iu. fold (f0 v) in V1, V2. fold (f0 u) in Iu. apply Nat.eqb_neq in V1, V2. rewrite !Nat.eqb_eq in Iu.
        destruct (G3 u Hu) as [Q|Q]; [unfold inp, in_pair; fold (f0 u); rewrite orb_true_iff, !Nat.eqb_eq; auto| |]; rewrite Q; destruct Iu as [Y|Y]; rewrite Y; apply eq_true_iff_eq; rewrite !Nat.eqb_eq; split; intro; congruence.
    + rewrite (G1 u) by auto. destruct (inp v) eqn:Iv; [|rewrite (G1 v) by auto; auto].
      unfold inp, in_pair in Iu, Iv. apply orb_false_iff in Iu. destruct Iu as [V1 V2]. apply orb_true_iff in Iv. fold (f0 u) in V1, V2. fold (f0 v) in Iv. apply Nat.eqb_neq in V1, V2. rewrite !Nat.eqb_eq in Iv.
      destruct (G3 v Hv) as [Q|Q]; [unfold inp, in_pair; fold (f0 v); rewrite orb_true_iff, !Nat.eqb_eq; auto| |]; rewrite Q; destruct Iv as [Y|Y]; rewrite Y; apply eq_true_iff_eq; rewrite !Nat.eqb_eq; split; intro; congruence.
  - f_equal. symmetry.
    transitivity (bsum n (fun u => bsum n (fun v => if sel u v then (if Nat.eqb (g u) (g v) then 0%N else W u v) else 0%N))).
    + apply bsum_ext. intros u _. apply bsum_ext. intros v _. destruct (sel u v), (g u =? g v); reflexivity.
    + apply select_once.
      * intros u v Hu Hv. rewrite (Nat.eqb_sym (g u)). unfold W. rewrite (W_symm R V u v Hu Hv). reflexivity.
      * intro u. unfold sel. rewrite Nat.ltb_irrefl. rewrite andb_false_r. reflexivity.
      * intros u v L Hv. apply sel_act; auto.
Qed.

(** the side of the source that an assignment gives, on the ids *)
Definition side (g : nat -> nat) (x : nat) : bool :=
  if x <? 2 then x =? 0 else existsb (fun v => inp v && negb (fx v) && Nat.eqb (nth v m 0) x && Nat.eqb (g v) a) (seq 0 n).

Lemma side_at g v : compat g -> v < n -> inp v = true -> side g (nth v m 0) = Nat.eqb (g v) a.
Proof.
  intros (G1 & G2 & G3) Hv I. unfold side. destruct (fx v) eqn:F.
  - rewrite (mp_fix _ _ _ MP v Hv I F). rewrite (G2 v Hv F). destruct (f0 v =? a); reflexivity.
  - pose proof (mp_free _ _ _ MP v Hv I F) as [X _]. destruct (Nat.ltb_spec (nth v m 0) 2); [lia|].
    destruct (Nat.eqb (g v) a) eqn:Q.
    + apply existsb_exists. exists v. split; [apply in_seq; lia|]. rewrite I, F, Nat.eqb_refl, Q. reflexivity.
    + apply existsb_false. intros u Hu. apply in_seq in Hu. destruct (inp u) eqn:Iu; [|reflexivity]. destruct (fx u) eqn:Fu; [reflexivity|]. cbn [negb andb].
      destruct (Nat.eqb_spec (nth u m 0) (nth v m 0)) as [E|E]; [|reflexivity]. destruct (lt_eq_lt_dec u v) as [[L|L]|L].
      * pose proof (mp_mono _ _ _ MP u v L Hv Iu I Fu F). lia.
      * subst u. rewrite Q. reflexivity.
      * pose proof (mp_mono _ _ _ MP v u L ltac:(lia) I Iu F Fu). lia.
Qed.

(** a side on the ids decides which edges of the blocks are cut *)
Lemma etot_side g S : (forall v, v < n -> inp v = true -> S (nth v m 0) = Nat.eqb (g v) a) -> (forall v, v < n -> inp v = true -> g v = a \/ g v = b) ->
  etot R (fun u t w => if sel u t then dif S (nth u m 0) (nth t m 0) w else 0%N) = pcost g.
Proof.
  intros HS HG. unfold pcost. fold n. unfold W, n. rewrite <- (etot_wt R (fun u v => sel u v && negb (Nat.eqb (g u) (g v))) V).
  unfold etot. apply bsum_ext. intros u Hu. apply sumN_ext. intros [[t w] r] I. cbn [fst snd]. destruct (sel u t) eqn:SE; [|reflexivity]. cbn [andb].
  destruct (row_target R V u t w r I) as [Ht _]. unfold sel in SE. apply andb_true_iff in SE. destruct SE as [SE _]. apply andb_true_iff in SE. destruct SE as [SE _]. apply andb_true_iff in SE. destruct SE as [Iu It].
  unfold dif. rewrite (HS u Hu Iu), (HS t Ht It). destruct (HG u Hu Iu) as [Q|Q], (HG t Ht It) as [Y|Y]; rewrite Q, Y; rewrite ?Nat.eqb_refl; try reflexivity;
    destruct (Nat.eqb_spec b a), (Nat.eqb_spec a b); try congruence; reflexivity.
Qed.

(** ** the final loop *)
Lemma reassign_ok zero : (forall v, v < n -> inp v = true -> fx v = true -> existsb (Nat.eqb (nth v m 0)) zero = Nat.eqb (f0 v) a) ->
  forall c k cur, k + c = n -> length cur = n ->
  (forall v, v < k -> block_of cur v = if inp v then (if existsb (Nat.eqb (nth v m 0)) zero then a else b) else f0 v) ->
  (forall v, k <= v -> block_of cur v = f0 v) ->
  exists sol', fold_opt (reassign fixed m zero a b) (seq k c) cur = Some sol' /\ length sol' = n /\
    (forall v, v < n -> block_of sol' v = if inp v then (if existsb (Nat.eqb (nth v m 0)) zero then a else b) else f0 v) /\
    (forall v, n <= v -> block_of sol' v = f0 v).
Proof.
  intro HF. induction c as [|c IH]; intros k cur E L A B; cbn [seq fold_opt].
  - exists cur. replace k with n in * by lia. split; [auto|]. split; [auto|]. split; auto.
  - unfold reassign at 1. unfold in_pair. rewrite (B k) by lia. fold (inp k). change ((f0 k =? a) || (f0 k =? b)) with (inp k). fold (fx k).
    destruct (inp k) eqn:Ik.
    + assert (X : fx k && negb (Bool.eqb (existsb (Nat.eqb (nth k m 0)) zero) (f0 k =? a)) = false).
      { destruct (fx k) eqn:Fk; [|reflexivity]. rewrite (HF k) by (auto; lia). rewrite Bool.eqb_reflx. reflexivity. }
      rewrite X. apply (IH (S k)); [lia|rewrite upd_length; auto| |].
      * intros v Hv. rewrite upd_mv by lia. unfold mv. destruct (Nat.eqb_spec v k) as [Q|Q]; [rewrite Q, Ik; reflexivity|apply A; lia].
      * intros v Hv. rewrite upd_mv by lia. rewrite mv_neq by lia. apply B. lia.
    + apply (IH (S k)); [lia|auto| |intros; apply B; lia]. intros v Hv. destruct (Nat.eq_dec v k) as [Q|Q]; [rewrite Q, Ik; apply B; lia|apply A; lia].
Qed.
End Numbered.
End Pair.
