(* Prop_StCactus.v - property C72: the cactus findSTCactus builds from the blocks of one flow computation. *)
From Verif Require Import SpecCut SpecDyn SpecMutable M_Mutable P_Mutable P_MutableIO P_Cut P_LocalSearch2 M_StCactus P_Crossing P_StCactus P_StCactus3 P_StCactus4 P_StCactus6 P_StCactus2 P_StCactus7 P_StCactus8 P_StCactus9 P_StCactus10 P_LocalSearch Prop_Mutable P_Check.

Definition gw (G : mg) : wfun := wt (adj (m_rows G)).
(** S does not split a block *)
Definition whole (n : nat) (f : nat -> nat) (S : nat -> bool) : Prop := forall u w, u < n -> w < n -> f u = f w -> S u = S w.

(** the blocks f = 0, ..., k-1 form a chain of minimum cuts of weight c *)
Record st_chain (n : nat) (W : wfun) (f : nat -> nat) (k : nat) (c : N) : Prop := {
  sc_blocks : clustering n f k; sc_two : 2 <= k; sc_pos : (0 < c)%N;
  (* no cut along the blocks is smaller *)
  sc_low : forall S, proper n S -> whole n f S -> (c <= cutw n W S)%N;
  (* the first blocks against the others *)
  sc_pref : forall i, i < k - 1 -> cutw n W (fun u => Nat.leb (f u) i) = c;
  (* the first and the last block are joined by an edge, or no minimum cut leaves them together *)
  sc_ends : (exists u w, u < n /\ w < n /\ f u = 0 /\ f w = k - 1 /\ (0 < W u w)%N) \/
            (forall S u w, proper n S -> whole n f S -> cutw n W S = c -> u < n -> w < n -> f u = 0 -> f w = k - 1 -> S u <> S w) }.

(** M is a cactus for the cuts of weight c of G which do not split a block; g maps the vertices of G to those of M *)
Record st_cactus (G : mg) (f : nat -> nat) (c : N) (M : mg) (g : nat -> nat) : Prop := {
  co_valid : mvalid M; co_last : m_last M = m_n M; co_orig : m_orig M = m_orig G;
  co_range : forall u, u < m_n G -> g u < m_n M;
  co_blocks : forall u w, u < m_n G -> w < m_n G -> (g u = g w <-> f u = f w);
  co_place : forall x, x < m_orig G -> nth x (m_pos G) 0 < m_n G -> nth x (m_pos M) 0 = g (nth x (m_pos G) 0);
  co_members : forall p x, In x (nth p (m_cont M) []) <-> (x < m_orig G /\ nth x (m_pos G) 0 < m_n G /\ g (nth x (m_pos G) 0) = p);
  (* no two vertices can be merged, not even those without members *)
  co_apart : apart c (m_n M) (gw M);
  co_edges : forall v t w r, In (t, w, r) (nth v (m_rows M) []) -> w = c \/ (2 * w)%N = c;
  co_lens : length (m_part M) = m_n M /\ length (m_cut M) = m_n M /\ length (m_cont M) = m_n M /\ length (m_pos M) = m_orig G;
  co_low : forall S, proper (m_n M) S -> (c <= cutw (m_n M) (gw M) S)%N;
  co_sound : forall S, proper (m_n M) S -> cutw (m_n M) (gw M) S = c -> proper (m_n G) (fun u => S (g u)) /\ cutw (m_n G) (gw G) (fun u => S (g u)) = c;
  co_complete : forall S, proper (m_n G) S -> whole (m_n G) f S -> cutw (m_n G) (gw G) S = c -> exists S', cutw (m_n M) (gw M) S' = c /\ forall u, u < m_n G -> S' (g u) = S u;
  co_nopar : no_parallel (m_rows M) }.

(** ** the index of a block in the order *)
Fixpoint index_of (p : nat) (l : list nat) : nat := match l with [] => 0 | x :: l => if x =? p then 0 else S (index_of p l) end.
Lemma index_in p l : In p l -> index_of p l < length l /\ nth (index_of p l) l 0 = p.
Proof. induction l as [|x l IH]; [intros []|]. intros I. cbn [index_of length]. destruct (Nat.eqb_spec x p) as [->|]; [split; [lia|reflexivity]|]. destruct I as [|I]; [contradiction|]. destruct (IH I). split; [lia|]. cbn. auto. Qed.
Lemma index_nth l i : NoDup l -> i < length l -> index_of (nth i l 0) l = i.
Proof. intros ND H. destruct (index_in (nth i l 0) l (nth_In _ _ H)) as [A B]. apply (proj1 (NoDup_nth l 0) ND); auto. Qed.

Section Order.
Context (n : nat) (W : wfun) (ord : list nat) (P : Permutation ord (seq 0 n)).
Lemma ord_len : length ord = n. Proof. rewrite (Permutation_length P), seq_length. reflexivity. Qed.
Lemma ord_nd : NoDup ord. Proof. apply (Permutation_NoDup (Permutation_sym P)), seq_NoDup. Qed.
Lemma ord_in p : p < n -> In p ord. Proof. intro H. apply (Permutation_in _ (Permutation_sym P)), in_seq. lia. Qed.
Lemma ord_lt i : i < n -> nth i ord 0 < n.
Proof. intro H. assert (I : In (nth i ord 0) (seq 0 n)) by (apply (Permutation_in _ P), nth_In; rewrite ord_len; auto). apply in_seq in I. lia. Qed.
Lemma idx_lt p : p < n -> index_of p ord < n. Proof. intro H. pose proof ord_len. destruct (index_in p ord (ord_in p H)). lia. Qed.
Lemma idx_nth p : p < n -> nth (index_of p ord) ord 0 = p. Proof. intro H. apply (index_in p ord (ord_in p H)). Qed.
Lemma nth_idx i : i < n -> index_of (nth i ord 0) ord = i. Proof. intro H. apply index_nth; [apply ord_nd|rewrite ord_len; auto]. Qed.
Lemma order_contraction : contraction_of n W (fun p => index_of p ord) n (fun a b => W (nth a ord 0) (nth b ord 0)).
Proof.
  intros a b Ha Hb _. rewrite <- (bsum_single n (fun x => W x (nth b ord 0)) (nth a ord 0) (ord_lt a Ha)). apply bsum_ext. intros u Hu.
  assert (E : forall i x, i < n -> x < n -> (index_of x ord =? i) = (x =? nth i ord 0)).
  { intros i x Hi Hx. destruct (Nat.eqb_spec x (nth i ord 0)) as [->|N]; [rewrite nth_idx by auto; apply Nat.eqb_refl|]. apply Nat.eqb_neq. intros <-. apply N. symmetry. apply idx_nth. auto. }
  rewrite (bsum_ext n _ (fun v => if v =? nth b ord 0 then if u =? nth a ord 0 then W u v else 0%N else 0%N)).
  2:{ intros v Hv. rewrite !E by auto. destruct (u =? nth a ord 0), (v =? nth b ord 0); reflexivity. }
  rewrite (bsum_single n (fun v => if u =? nth a ord 0 then W u v else 0%N)) by (apply ord_lt; auto). reflexivity.
Qed.
Lemma order_cutw S : cutw n (fun a b => W (nth a ord 0) (nth b ord 0)) S = cutw n W (fun p => S (index_of p ord)).
Proof. apply (contraction_cut n W (fun p => index_of p ord) n); [intros; apply idx_lt; auto|apply order_contraction]. Qed.
End Order.

(** the record from the facts about the steps *)
Lemma cactus_of G v k c C ord M M' : clustering (m_n G) (fun u => nth u v 0) k ->
  (forall S, cutw k (wt (adj (m_rows C))) S = cutw (m_n G) (gw G) (fun u => S (nth u v 0))) ->
  (forall p, nth p (m_cont C) [] = filter (fun x => live G x && (cls v G x =? p)) (seq 0 (m_orig G))) -> Permutation ord (seq 0 k) ->
  m_orig M = m_orig G -> length (m_cont M) = k -> length (m_pos M) = m_orig G ->
  (forall i, i < k -> nth i (m_cont M) [] = nth (nth i ord 0) (m_cont C) []) -> (forall i y, i < k -> In y (nth (nth i ord 0) (m_cont C) []) -> nth y (m_pos M) 0 = i) ->
  mvalid M' -> same_info M M' -> k <= m_n M' -> shape c M' -> no_parallel (m_rows M') -> apart c (m_n M') (gw M') ->
  (forall f, proper (m_n M') f -> (c <= gcut M' f)%N) ->
  (forall f, proper (m_n M') f -> gcut M' f = c -> proper k f /\ cutw k (fun a b => wt (adj (m_rows C)) (nth a ord 0) (nth b ord 0)) f = c) ->
  (forall S, proper k S -> cutw k (fun a b => wt (adj (m_rows C)) (nth a ord 0) (nth b ord 0)) S = c -> exists f, gcut M' f = c /\ forall x, x < k -> f x = S x) ->
  st_cactus G (fun u => nth u v 0) c (m_finish M') (fun u => index_of (nth u v 0) ord).
Proof.
  intros [Bv On] Cut CC PO OM LcM LpM CM PM VM' (Ps & Os & Ls & e & Cs) NM' Sh Npl Ap Lw Sd Cp.
  set (g := fun u => index_of (nth u v 0) ord). assert (Rg : forall u, u < m_n G -> g u < k) by (intros u Hu; apply (idx_lt k ord PO); auto).
  assert (CutO : forall S, cutw k (fun a b => wt (adj (m_rows C)) (nth a ord 0) (nth b ord 0)) S = cutw (m_n G) (gw G) (fun u => S (g u))).
  { intro S. rewrite (order_cutw k _ ord PO). apply (Cut (fun p => S (index_of p ord))). }
  fold g. constructor; cbn [m_finish m_rows m_pos m_cont m_orig m_last]; change (m_n (m_finish M')) with (m_n M'); change (gw (m_finish M')) with (gw M').
  - exact VM'.
  - reflexivity.
  - congruence.
  - intros u Hu. specialize (Rg u Hu). lia.
  - intros u w Hu Hw. unfold g. split; intro E; [|congruence]. rewrite <- (idx_nth k ord PO (nth u v 0)), E by auto. apply (idx_nth k ord PO). auto.
  - intros x Hx Lx. rewrite Ps. apply PM; [apply Rg; auto|]. unfold g. rewrite (idx_nth k ord PO) by auto. rewrite CC. apply filter_In. split; [apply in_seq; lia|]. apply andb_true_iff. split; [apply Nat.ltb_lt; auto|apply Nat.eqb_refl].
  - intros p x. rewrite Cs. destruct (Nat.lt_ge_cases p k) as [Hp|Hp].
    + rewrite app_nth1 by lia. rewrite CM, CC by auto. rewrite filter_In, in_seq, andb_true_iff, Nat.eqb_eq. unfold live, cls. rewrite Nat.ltb_lt. unfold g. split.
      * intros (A & L & E). split; [lia|]. split; [auto|]. rewrite E. apply (nth_idx k ord PO). auto.
      * intros (A & L & E). split; [lia|]. split; [auto|]. rewrite <- E. symmetry. apply (idx_nth k ord PO). auto.
    + rewrite app_nth2 by lia. rewrite nth_repeat. split; [intros []|]. intros (_ & L & E). specialize (Rg _ L). lia.
  - exact Ap.
  - apply Sh.
  - destruct Sh as (S1 & S2 & S3 & _). cbn [m_finish m_part m_cut]. change (m_n (m_finish M')) with (m_n M'). split; [exact S1|]. split; [exact S2|]. split; [exact S3|congruence].
  - intros S PS. apply (Lw S PS).
  - intros S PS E. destruct (Sd S PS E) as [PK EK]. rewrite CutO in EK. split; [|auto]. destruct PK as [(a & Ha & Sa) (b & Hb & Sb)].
      destruct (On _ (ord_lt k ord PO a Ha)) as (u & Hu & Eu), (On _ (ord_lt k ord PO b Hb)) as (w & Hw & Ew). split; [exists u|exists w]; (split; [auto|]); unfold g; rewrite ?Eu, ?Ew, (nth_idx k ord PO) by auto; auto.
  - intros S PS WS E. (* the side of a block *)
      set (h := fun p => existsb (fun u => (nth u v 0 =? nth p ord 0) && S u) (seq 0 (m_n G))).
      assert (Hh : forall u, u < m_n G -> h (g u) = S u).
      { intros u Hu. unfold h, g. rewrite (idx_nth k ord PO) by auto. destruct (S u) eqn:Su.
        - apply existsb_exists. exists u. split; [apply in_seq; lia|]. rewrite Nat.eqb_refl, Su. reflexivity.
        - apply not_true_is_false. intro X. apply existsb_exists in X. destruct X as (w & Iw & X). apply in_seq in Iw. apply andb_true_iff in X. destruct X as [X Sw]. apply Nat.eqb_eq in X. rewrite (WS w u) in Sw by (auto; lia). congruence. }
      destruct (Cp h) as (S' & E' & A').
    + destruct PS as [(u & Hu & Su) (w & Hw & Sw)]. split; [exists (g u)|exists (g w)]; (split; [apply Rg; auto|rewrite Hh by auto; auto]).
    + rewrite CutO, (cutw_ext _ _ _ S); auto.
    + exists S'. split; [exact E'|]. intros u Hu. rewrite A' by (apply Rg; auto). auto.
  - exact Npl.
Qed.

(** C72: for blocks numbered along a chain of minimum cuts, findSTCactus terminates normally with a cactus of all minimum cuts along the blocks. *)
Theorem C72_st_cactus : forall G v s k lambda x0, mvalid G -> m_n G <= length v -> m_orig G <= length (m_pos G) -> (lambda < 2 ^ 32)%N ->
  st_chain (m_n G) (gw G) (fun u => nth u v 0) k lambda ->
  s < m_n G -> nth s v 0 = 0 -> nth_error (nth s (m_cont G) []) 0 = Some x0 -> x0 < m_orig G -> nth x0 (m_pos G) 0 = s ->
  exists M g, find_st_cactus v G s k lambda = Some M /\ st_cactus G (fun u => nth u v 0) lambda M g.
Proof.
  intros G v s k c x0 HG Lv Lp Hc [[Bv On] K2 Pc Low Pre Ends] Hs Fs E0 Hx0 Px0. change (2 ^ 32)%N with 4294967296%N in Hc.
  destruct (contract_ok v G k HG Lv Bv Lp) as (C & EC & (VC & NC & TC) & CO & OC & LPC & LCC & CC & PC).
  assert (SC : symm k (wt (adj (m_rows C)))) by (rewrite <- NC; apply valid_symm, VC).
  assert (Cut : forall S, cutw k (wt (adj (m_rows C))) S = cutw (m_n G) (gw G) (fun u => S (nth u v 0))) by (intro S; apply (contraction_cut (m_n G) _ _ k); auto).
  assert (Pr : forall S, proper k S -> proper (m_n G) (fun u => S (nth u v 0))).
  { intros S [(a & Ha & Sa) (b & Hb & Sb)]. destruct (On a Ha) as (u & Hu & Eu), (On b Hb) as (w & Hw & Ew). split; [exists u|exists w]; split; auto; congruence. }
  assert (Wh : forall S, whole (m_n G) (fun u => nth u v 0) (fun u => S (nth u v 0))) by (intros S u w _ _ E; rewrite E; reflexivity).
  assert (Ln : line k (wt (adj (m_rows C))) c).
  { constructor; auto.
    - intros S PS. rewrite Cut. apply Low; auto.
    - intros i Hi. rewrite Cut. apply (Pre i Hi).
    - destruct Ends as [(u & w & Hu & Hw & Eu & Ew & Pw)|Sep].
      + left. rewrite CO by lia. eapply N.lt_le_trans; [exact Pw|]. eapply N.le_trans; [|apply (bsum_In_le _ _ u Hu)]. eapply N.le_trans; [|apply (bsum_In_le _ _ w Hw)]. cbn beta. rewrite Eu, Ew, !Nat.eqb_refl. cbn [andb]. unfold gw. lia.
      + right. intros S PS ES. destruct (On 0 ltac:(lia)) as (u & Hu & Eu), (On (k - 1) ltac:(lia)) as (w & Hw & Ew). pose proof (Sep (fun u => S (nth u v 0)) u w (Pr S PS) (Wh S) ltac:(rewrite <- Cut; auto) Hu Hw Eu Ew) as Q. cbn beta in Q. rewrite Eu, Ew in Q. exact Q. }
  assert (Hrows : forall x, x < k -> pairs_of (nth x (m_rows C) []) = map (fun b => (b, wt (adj (m_rows C)) x b)) (filter (fun b => negb (b =? x)) (seq 0 k))).
  { intros x Hx. rewrite (pairs_from_tgts _ _ (TC x Hx)) by (apply NoDup_filter, seq_NoDup). apply map_ext. intro b. rewrite wt_sum. reflexivity. }
  destruct (order_ok k (wt (adj (m_rows C))) c Hc (m_rows C) Ln Hrows C NC eq_refl) as (ord & EO & PO & CH).
  pose proof (complete_of k (wt (adj (m_rows C))) c Hc (m_rows C) Ln Hrows ord NC PO) as CR.
  destruct (vertices_made C k ord (m_orig G) NC OC LCC PO) as (M & EM & VM & NM & LM & OM & GM & LcM & LpM & CM & PM).
  { intros p y I. rewrite CC in I. apply filter_In in I. destruct I as [I _]. apply in_seq in I. lia. }
  { intros p q y I J. rewrite CC in I, J. apply filter_In in I, J. destruct I as [_ I], J as [_ J]. apply andb_true_iff in I, J. destruct I as [_ I], J as [_ J]. apply Nat.eqb_eq in I, J. congruence. }
  destruct (scan_links k _ c CH (m_rows C) ord CR M VM NM LM GM) as (its & M' & ES & EL & VM' & (Ps & Os & Ls & e & Cs) & NM' & Lw & Sd & Cp & It & ls & Chl & Gt).
  assert (Sh : shape c M'). { eapply (links_shape c k (ItB 0 :: its) 0); [apply is_B; [lia|exact It]| |exact EL]. eapply vertices_shape; eauto. }
  assert (Er : forall x, nth x (m_rows M) [] = []).
  { intro x. pose proof (vertices_rows C ord M EM) as Q. rewrite Q. destruct (Nat.lt_ge_cases x (m_n C)); [apply nth_repeat|apply nth_overflow; rewrite repeat_length; auto]. }
  assert (Npl : no_parallel (m_rows M')).
  { apply (links_nopar c k K2 (ItB 0 :: its) 0) with (prev := 0) (M := M); auto; try lia; [apply is_B; [lia|exact It]|intro x; rewrite Er; constructor|]. intros x _ _. rewrite Er. reflexivity. }
  exists (m_finish M'), (fun u => index_of (nth u v 0) ord). split.
  - unfold find_st_cactus. rewrite E0, EC. rewrite (nth_error_nth' (m_pos C) 0) by lia. rewrite PC; auto; [|unfold live; rewrite Px0; apply Nat.ltb_lt; auto]. unfold cls. rewrite Px0, Fs, EO, EM, ES, EL. reflexivity.
  - apply (cactus_of G v k c C ord M M'); auto; [split; auto|split; [auto|split; [auto|split; [auto|exists e; auto]]]|].
    intros a b Ha Hb Nab. destruct (apart_tot c Pc k ls (m_n M') ltac:(lia) Chl a b Ha Hb Nab) as (f & Df & Tf). exists f. split; [exact Df|]. rewrite <- Tf. apply Gt.
Qed.
Print Assumptions C72_st_cactus.

(** ** concrete cases *)
Lemma chain_check G v k c u w : mvalid G -> clustering (m_n G) (fun u => nth u v 0) k -> 2 <= k -> (0 < c)%N -> cuts_geb (adj (m_rows G)) c = true ->
  forallb (fun i => N.eqb (cutw (m_n G) (gw G) (fun u => Nat.leb (nth u v 0) i)) c) (seq 0 (k - 1)) = true -> u < m_n G -> w < m_n G -> nth u v 0 = 0 -> nth w v 0 = k - 1 -> (0 <? gw G u w)%N = true ->
  st_chain (m_n G) (gw G) (fun u => nth u v 0) k c.
Proof.
  intros V Cl K2 Pc L P Hu Hw Eu Ew Pw. constructor; auto.
  - intros S PS _. assert (E : m_n G = length (adj (m_rows G))) by (unfold m_n, adj; rewrite map_length; reflexivity). rewrite E in *. apply cuts_geb_ok; auto.
  - intros i Hi. rewrite forallb_forall in P. apply N.eqb_eq, P, in_seq. lia.
  - left. exists u, w. repeat (split; [auto|]). apply N.ltb_lt. exact Pw.
Qed.
Ltac blocks := split; [intros u Hu; do 6 (destruct u as [|u]; [cbn; lia|]); exfalso; lia|].

(** blocks {0}, {1, 4}, {2}, {3}: an edge and a cycle *)
Definition c72_a := mg_of 5 [NewEdge 0 1 3; NewEdge 0 3 1; NewEdge 3 4 1; NewEdge 1 2 2; NewEdge 2 3 2; NewEdge 1 4 5].
Example c72_mixed_hyps : mvalid c72_a /\ st_chain (m_n c72_a) (gw c72_a) (fun u => nth u [0; 1; 2; 3; 1] 0) 4 4.
Proof.
  assert (V : mvalid c72_a) by exact (proj1 (mg_of_valid 5 [NewEdge 0 1 3; NewEdge 0 3 1; NewEdge 3 4 1; NewEdge 1 2 2; NewEdge 2 3 2; NewEdge 1 4 5] eq_refl)). split; [exact V|].
  apply (chain_check _ _ _ _ 0 3); [exact V| |lia|reflexivity|vm_compute; reflexivity|vm_compute; reflexivity|apply Nat.ltb_lt; reflexivity|apply Nat.ltb_lt; reflexivity|reflexivity|reflexivity|vm_compute; reflexivity]. change (m_n c72_a) with 5. blocks. intros p Hp. exists p. split; [lia|]. do 6 (destruct p as [|p]; [try reflexivity; lia|]). lia.
Qed.
Example c72_mixed_run : option_map (fun C => (m_pos C, m_cont C, map (map fst) (m_rows C))) (find_st_cactus [0; 1; 2; 3; 1] c72_a 0 4 4) =
  Some ([0; 1; 3; 2; 1], [[0]; [1; 4]; [3]; [2]], [[(1, 4%N)]; [(0, 4%N); (2, 2%N); (3, 2%N)]; [(1, 2%N); (3, 2%N)]; [(2, 2%N); (1, 2%N)]]).
Proof. vm_compute. reflexivity. Qed.

(** two cycles which meet in a vertex without members *)
Definition c72_b := mg_of 6 [NewEdge 0 1 2; NewEdge 1 2 2; NewEdge 3 4 2; NewEdge 4 5 2; NewEdge 2 3 1; NewEdge 2 5 1; NewEdge 0 3 1; NewEdge 0 5 1].
Lemma c72_b_valid : mvalid c72_b.
Proof. exact (proj1 (mg_of_valid 6 [NewEdge 0 1 2; NewEdge 1 2 2; NewEdge 3 4 2; NewEdge 4 5 2; NewEdge 2 3 1; NewEdge 2 5 1; NewEdge 0 3 1; NewEdge 0 5 1] eq_refl)). Qed.
Example c72_two_cycles_hyps : mvalid c72_b /\ st_chain (m_n c72_b) (gw c72_b) (fun u => nth u [0; 1; 2; 3; 4; 5] 0) 6 4 /\ nth_error (nth 0 (m_cont c72_b) []) 0 = Some 0 /\ m_orig c72_b = 6 /\ length (m_pos c72_b) = 6.
Proof.
  split; [exact c72_b_valid|]. split; [|split; [reflexivity|split; reflexivity]]. apply (chain_check _ _ _ _ 0 5); [exact c72_b_valid| |lia|reflexivity|vm_compute; reflexivity|vm_compute; reflexivity|apply Nat.ltb_lt; reflexivity|apply Nat.ltb_lt; reflexivity|reflexivity|reflexivity|vm_compute; reflexivity]. change (m_n c72_b) with 6. blocks. intros p Hp. exists p. split; [lia|]. do 6 (destruct p as [|p]; [try reflexivity; lia|]). lia.
Qed.
Example c72_two_cycles_run : option_map (fun C => (m_pos C, m_cont C, map (map fst) (m_rows C))) (find_st_cactus [0; 1; 2; 3; 4; 5] c72_b 0 6 4) =
  Some ([0; 1; 2; 5; 4; 3], [[0]; [1]; [2]; [5]; [4]; [3]; []],
        [[(1, 2%N); (6, 2%N)]; [(0, 2%N); (2, 2%N)]; [(1, 2%N); (6, 2%N)]; [(6, 2%N); (4, 2%N)]; [(3, 2%N); (5, 2%N)]; [(4, 2%N); (6, 2%N)]; [(2, 2%N); (0, 2%N); (3, 2%N); (5, 2%N)]]).
Proof. vm_compute. reflexivity. Qed.

(** The order of the blocks is needed: the same blocks with other numbers give a graph in which the minimum cut {4, 5} is missing.
    findSTCactus takes the vertices by decreasing key from a bucket queue, and the order among equal keys follows the numbers. *)
Theorem C72_order_needed : ~ (forall G v s k lambda x0, mvalid G -> m_n G <= length v -> m_orig G <= length (m_pos G) -> (lambda < 2 ^ 32)%N ->
  clustering (m_n G) (fun u => nth u v 0) k -> (exists pi : nat -> nat, st_chain (m_n G) (gw G) (fun u => pi (nth u v 0)) k lambda /\ pi 0 = 0 /\ forall a, a < k -> pi a < k) ->
  s < m_n G -> nth s v 0 = 0 -> nth_error (nth s (m_cont G) []) 0 = Some x0 -> x0 < m_orig G -> nth x0 (m_pos G) 0 = s ->
  exists M g, find_st_cactus v G s k lambda = Some M /\ st_cactus G (fun u => nth u v 0) lambda M g).
Proof.
  intro X. destruct (X c72_b [0; 1; 3; 4; 2; 5] 0 6 4%N 0) as (M & g & E & [V La O Rg Bl Pl Mb Ap Ed Le Lw So Co]); [exact c72_b_valid|apply Nat.leb_le; reflexivity|apply Nat.leb_le; reflexivity|reflexivity| | |apply Nat.ltb_lt; reflexivity|reflexivity|reflexivity|apply Nat.ltb_lt; reflexivity|reflexivity|].
  - change (m_n c72_b) with 6. blocks. intros p Hp. exists (nth p [0; 1; 4; 2; 3; 5] 0). do 6 (destruct p as [|p]; [cbn; split; [lia|reflexivity]|]). lia.
  - exists (fun a => nth a [0; 1; 4; 2; 3; 5] 0). split; [|split; [reflexivity|intros a Ha; do 6 (destruct a as [|a]; [cbn; lia|]); lia]].
    destruct c72_two_cycles_hyps as (_ & C & _). destruct C as [[B1 B2] K2 Pc L P En].
    assert (Q : forall u, u < m_n c72_b -> nth (nth u [0; 1; 3; 4; 2; 5] 0) [0; 1; 4; 2; 3; 5] 0 = nth u [0; 1; 2; 3; 4; 5] 0) by (intros u Hu; change (m_n c72_b) with 6 in Hu; do 6 (destruct u as [|u]; [try reflexivity; lia|]); lia).
    constructor; [|exact K2|exact Pc| | |].
    + split; [intros u Hu; rewrite Q by auto; auto|]. intros p Hp. destruct (B2 p Hp) as (u & Hu & Eu). exists u. split; [auto|]. rewrite Q by auto. auto.
    + intros S PS WS. apply L; auto. intros u w Hu Hw E. apply WS; auto. rewrite !Q by auto. auto.
    + intros i Hi. erewrite cutw_ext; [apply (P i Hi)|]. intros u Hu. cbn beta. rewrite Q by auto. reflexivity.
    + left. exists 0, 5. split; [apply Nat.ltb_lt; reflexivity|]. split; [apply Nat.ltb_lt; reflexivity|]. split; [reflexivity|]. split; [reflexivity|]. apply N.ltb_lt. vm_compute. reflexivity.
  - assert (EM : M = match find_st_cactus [0; 1; 3; 4; 2; 5] c72_b 0 6 4 with Some M => M | None => c72_b end) by (rewrite E; reflexivity).
    destruct (Co (fun u => Nat.leb 4 u)) as (S' & E' & A').
    + split; [exists 4|exists 0]; (split; [apply Nat.ltb_lt; reflexivity|reflexivity]).
    + intros u w Hu Hw Q. change (m_n c72_b) with 6 in Hu, Hw. cut (u = w); [intros ->; reflexivity|]. do 6 (destruct u as [|u]; [do 6 (destruct w as [|w]; [try reflexivity; discriminate Q|]); lia|]). lia.
    + vm_compute. reflexivity.
    + assert (Pg : forall u, u < 6 -> g u = nth u (m_pos M) 0).
      { assert (Id : m_pos c72_b = seq 0 6) by reflexivity. intros u Hu. assert (E6 : nth u (m_pos c72_b) 0 = u) by (rewrite Id, seq_nth by auto; reflexivity).
        rewrite (Pl u); [rewrite E6; reflexivity|exact Hu|rewrite E6; exact Hu]. }
      assert (D : forallb (fun l => negb (N.eqb (cutw (m_n M) (gw M) (fun x => nth x l false)) 4) || negb (forallb (fun u => Bool.eqb (nth (nth u (m_pos M) 0) l false) (Nat.leb 4 u)) (seq 0 6))) (bools 8) = true) by (rewrite EM; vm_compute; reflexivity).
      rewrite forallb_forall in D. specialize (D (map S' (seq 0 8))). assert (NM : m_n M = 8) by (rewrite EM; vm_compute; reflexivity).
      assert (Hn : forall x, x < 8 -> nth x (map S' (seq 0 8)) false = S' x) by (intros x Hx; rewrite (nth_indep _ false (S' 0)) by (rewrite map_length, seq_length; auto); rewrite map_nth, seq_nth by auto; reflexivity).
      rewrite (cutw_ext (m_n M) _ _ S') in D by (intros; apply Hn; lia). rewrite E' in D. cbn [N.eqb Pos.eqb negb orb] in D. apply negb_true_iff in D; [|apply (bools_in (map S' (seq 0 8)))].
      assert (Y : forallb (fun u => Bool.eqb (nth (nth u (m_pos M) 0) (map S' (seq 0 8)) false) (Nat.leb 4 u)) (seq 0 6) = true); [|congruence].
      apply forallb_forall. intros u Iu. apply in_seq in Iu. rewrite <- Pg by lia. rewrite Hn by (rewrite <- NM; apply Rg; change (m_n c72_b) with 6; lia). apply Bool.eqb_true_iff. apply A'. change (m_n c72_b) with 6. lia.
Qed.
Print Assumptions C72_order_needed.
