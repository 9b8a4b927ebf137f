(* Prop_Rebuild.v - property C74: after a deletion that lowers the minimum cut, one maximum flow and decrementalRebuild give the
   cactus of all minimum cuts. *)
From Coq Require Import Relations.
From Verif Require Import SpecCut SpecDyn SpecFlow SpecMutable LibZ M_Mutable P_Mutable P_MutableIO P_Cut M_PushRelabel P_Flow6 M_LimFlow Prop_Flow Prop_LimFlow M_Scc Prop_StCactus P_FlowChain M_Rebuild P_Rebuild P_Rebuild2 Prop_Mutable P_Check SpecDyn M_Dynamic P_Dynamic P_Dynamic4 P_Dynamic5 Prop_Dynamic.

(** M is a cactus of all cuts of weight c of G; g maps the vertices of G to those of M *)
Record min_cactus (G : mg) (c : N) (M : mg) (g : nat -> nat) : Prop := {
  mc_valid : mvalid M; mc_last : m_last M = m_n M; mc_orig : m_orig M = m_orig G;
  mc_range : forall u, u < m_n G -> g u < m_n M;
  (* two vertices are at the same place iff no minimum cut separates them *)
  mc_same : forall u w, u < m_n G -> w < m_n G -> (g u = g w <-> forall S, proper (m_n G) S -> cutw (m_n G) (gw G) S = c -> S u = S w);
  mc_place : forall x, x < m_orig G -> nth x (m_pos G) 0 < m_n G -> nth x (m_pos M) 0 = g (nth x (m_pos G) 0);
  mc_members : forall p x, In x (nth p (m_cont M) []) <-> (x < m_orig G /\ nth x (m_pos G) 0 < m_n G /\ g (nth x (m_pos G) 0) = p);
  mc_lens : length (m_part M) = m_n M /\ length (m_cut M) = m_n M /\ length (m_cont M) = m_n M /\ length (m_pos M) = m_orig G;
  mc_edges : forall v t w r, In (t, w, r) (nth v (m_rows M) []) -> w = c \/ (2 * w)%N = c;
  mc_two : 2 <= m_n M;
  mc_apart : apart c (m_n M) (gw M);
  mc_low : atleast c (m_n M) (gw M);
  mc_sound : sound (m_n G) (gw G) c (m_n M) (gw M) g;
  mc_complete : complete (m_n G) (gw G) c (m_n M) (gw M) g }.

Lemma min_of_st G f c M g : is_mincut (m_n G) (gw G) c -> (forall S, proper (m_n G) S -> cutw (m_n G) (gw G) S = c -> whole (m_n G) f S) ->
  st_cactus G f c M g -> min_cactus G c M g.
Proof.
  intros [(S0 & P0 & E0) Low] Wh [V La O Rg Bl Pl Mb Ap Ed Le Lw So Co _].
  assert (Sep : forall S, proper (m_n G) S -> cutw (m_n G) (gw G) S = c -> exists S', cutw (m_n M) (gw M) S' = c /\ forall u, u < m_n G -> S' (g u) = S u).
  { intros S P E. apply Co; auto. }
  constructor; auto.
  - intros u w Hu Hw. split.
    + intros Q S P E. apply (Wh S P E u w Hu Hw). apply Bl; auto.
    + intro Q. destruct (Nat.eq_dec (g u) (g w)) as [|N]; [auto|exfalso]. destruct (Ap (g u) (g w) (Rg u Hu) (Rg w Hw) N) as (h & Dh & Eh).
      assert (Ph : proper (m_n M) h). { destruct (h (g u)) eqn:H1, (h (g w)) eqn:H2; try congruence; [split; [exists (g u)|exists (g w)]|split; [exists (g w)|exists (g u)]]; auto. }
      destruct (So h Ph Eh) as [P1 E1]. apply Dh. apply (Q (fun u => h (g u)) P1 E1).
  - destruct P0 as [(a & Ha & Sa) (b & Hb & Sb)]. destruct (Sep S0) as (S' & _ & A); [split; eauto|auto|]. pose proof (Rg a Ha). pose proof (Rg b Hb).
    assert (g a <> g b); [|lia]. intro Q. pose proof (A a Ha). pose proof (A b Hb). rewrite Q in *. congruence.
Qed.

(** C74: F is a maximum flow from s to t as it is stored in the edges, its value c is the minimum cut of G, and every minimum cut
    separates s and t *)
Theorem C74_rebuild : forall G s t c F fpid E x0, mvalid G -> m_orig G <= length (m_pos G) -> (c < 2 ^ 32)%N -> s < m_n G -> t < m_n G -> s <> t ->
  max_flow (m_rows G) [s; t] s F (Z.of_N c) -> stores fpid E (m_rows G) F ->
  is_mincut (m_n G) (gw G) c -> (forall S, proper (m_n G) S -> cutw (m_n G) (gw G) S = c -> S s <> S t) ->
  nth_error (nth s (m_cont G) []) 0 = Some x0 -> x0 < m_orig G -> nth x0 (m_pos G) 0 = s ->
  exists M g, decremental_rebuild fpid E G s c = Some M /\ min_cactus G c M g.
Proof.
  intros G s t c F fpid E x0 HG Lp Hc Hs Ht Nst MF ST Min Sep E0 Hx0 Px0. assert (V : valid_rows (m_rows G)) by apply HG.
  destruct (components_ok (m_rows G) V s t Hs Ht Nst F fpid E ST) as (o & Eo & Lv & CL & Top & Same). cbv zeta in *. set (f := fun u => nth u (comp_vector o) 0) in *.
  pose proof (st_apart (m_rows G) V s t Hs Ht Nst F c MF fpid E ST f Same) as Nf.
  pose proof (st_cap (m_rows G) s t F c MF fpid E ST) as Cap. pose proof (st_out (m_rows G) V s t Hs Ht Nst F c MF fpid E ST) as Out. set (fl := flows_of fpid E) in *.
  change (length (m_rows G)) with (m_n G) in *.
  assert (K2 : 2 <= s_cc o) by (pose proof (proj1 CL s Hs); pose proof (proj1 CL t Ht); lia).
  assert (Wh : forall S, proper (m_n G) S -> cutw (m_n G) (gw G) S = c -> whole (m_n G) f S).
  { intros S P ES. apply (mincut_whole2 (m_rows G) V fl (Z.of_N c) s t Hs Ht Nst Cap Out f (s_cc o) Top Same c eq_refl S ES). apply (Sep S P ES). }
  unfold decremental_rebuild. rewrite Eo. destruct (N.eq_dec c 0) as [->|Nc].
  - assert (Cl0 : forall S, closed (m_rows G) fl S -> cutw (m_n G) (gw G) S = 0%N).
    { intros S CS. pose proof (closed_cut (m_rows G) fl _ s t Out S CS) as Q. change (Z.of_N 0) with 0%Z in Q. change (length (m_rows G)) with (m_n G) in Q. unfold gw. destruct (S s), (S t); lia. }
    assert (Pf : forall i, cutw (m_n G) (gw G) (fun u => f u <=? i) = 0%N).
    { intro i. apply Cl0. intros u v R0 H. cbn beta in *. apply Nat.leb_le in H. apply Nat.leb_le. pose proof (Top u v R0). subst f. cbn beta in *. eapply Nat.le_trans; eassumption. }
    assert (Nul : forall i u v, u < m_n G -> v < m_n G -> f u <= i -> i < f v -> gw G u v = 0%N).
    { intros i u v Hu Hv A B. pose proof (Pf i) as Q. unfold cutw in Q. pose proof (bsum_In_le (m_n G) (fun u => bsum (m_n G) (fun v => if (f u <=? i) && negb (f v <=? i) then gw G u v else 0%N)) u Hu) as Q1.
      pose proof (bsum_In_le (m_n G) (fun v => if (f u <=? i) && negb (f v <=? i) then gw G u v else 0%N) v Hv) as Q2. cbn beta in Q1, Q2.
      destruct (Nat.leb_spec (f u) i); [|lia]. destruct (Nat.leb_spec (f v) i); [lia|]. cbn [andb negb] in *. lia. }
    assert (Sy : symm (m_n G) (gw G)) by (apply valid_symm; auto).
    assert (Nul2 : forall u v, u < m_n G -> v < m_n G -> f u <> f v -> gw G u v = 0%N).
    { intros u v Hu Hv D. destruct (Nat.lt_ge_cases (f u) (f v)); [apply (Nul (f u)); auto|]. rewrite (Sy u v) by auto. apply (Nul (f v)); auto; lia. }
    assert (Blk : forall j, cutw (m_n G) (gw G) (fun u => f u =? j) = 0%N).
    { intro j. unfold cutw. apply bsum_zero. intros u Hu. apply bsum_zero. intros v Hv. destruct (Nat.eqb_spec (f u) j), (Nat.eqb_spec (f v) j); cbn [andb negb]; auto. apply Nul2; auto. congruence. }
    assert (KE : s_cc o = 2).
    { destruct (Nat.eq_dec (s_cc o) 2) as [|N3]; [auto|exfalso].
      assert (exists j, j < s_cc o /\ j <> f s /\ j <> f t) as (j & Hj & J1 & J2). { destruct (Nat.eq_dec (f s) 0), (Nat.eq_dec (f t) 0), (Nat.eq_dec (f s) 1), (Nat.eq_dec (f t) 1); try lia; try (exists 0; lia); try (exists 1; lia); exists 2; lia. }
      destruct (proj2 CL j Hj) as (u & Hu & Eu). apply (Sep (fun u => f u =? j)); [split; [exists u|exists s]; (split; [auto|])| |].
      - apply Nat.eqb_eq. exact Eu.
      - apply Nat.eqb_neq. auto.
      - apply Blk.
      - destruct (Nat.eqb_spec (f s) j), (Nat.eqb_spec (f t) j); congruence. }
    rewrite KE in *. destruct (two_cactus G (comp_vector o) s x0) as (M & g & EM & SM); auto.
    + rewrite Lv; auto.
    + exists M, g. split; [exact EM|]. apply (min_of_st G f); auto.
  - destruct (chain_ok (m_rows G) fl (Z.of_N c) s t Hs Ht Nst Cap Out f (s_cc o) CL Top Same c eq_refl Min K2 ltac:(lia) Sep) as (Ch & F0 & _).
    destruct (C72_st_cactus G (comp_vector o) s (s_cc o) c x0) as (M & g & EM & SM); auto.
    + rewrite Lv; auto.
    + exists M, g. split; [exact EM|]. apply (min_of_st G f); auto.
Qed.
Print Assumptions C74_rebuild.

(** ** the whole step: the flow with the limit, and the cactus from the flow it leaves behind *)

Lemma stored_ok fpid R fl : stores fpid (stored fpid R fl) R (fun v e => nth e (nth v fl []) 0%Z).
Proof.
  assert (RW : forall v, nth v (stored fpid R fl) [] = map (fun e => match nth e (nth v R []) (0, 0%N, 0) with (t, w, _) => mk_fe t w (nth e (nth v fl []) 0%Z) fpid end) (seq 0 (length (nth v R [])))).
  { intro v. unfold stored. match goal with |- nth v (map ?f _) [] = _ => set (F := f) end. change (nth v (map F (seq 0 (length R))) [] = F v). destruct (Nat.lt_ge_cases v (length R)) as [H|H].
    - rewrite (nth_indep _ [] (F 0)) by (rewrite map_length, seq_length; auto). rewrite map_nth, seq_nth by auto. reflexivity.
    - rewrite nth_overflow by (rewrite map_length, seq_length; auto). unfold F. rewrite (nth_overflow R) by auto. reflexivity. }
  split; [|split].
  - unfold stored. rewrite map_length, seq_length. reflexivity.
  - intro v. rewrite RW, map_length, seq_length. reflexivity.
  - intros v e t w r H. unfold hedge in H. rewrite RW. assert (L : e < length (nth v R [])) by (apply nth_error_Some; congruence).
    exists (mk_fe t w (nth e (nth v fl []) 0%Z) fpid). split; [|split; [reflexivity|split; [reflexivity|cbn; rewrite Nat.eqb_refl; reflexivity]]].
    rewrite nth_error_map. assert (Q : nth_error (seq 0 (length (nth v R []))) e = Some e). { rewrite nth_error_nth' with (d := 0) by (rewrite seq_length; auto). rewrite seq_nth by auto. reflexivity. }
    rewrite Q. cbn [option_map]. rewrite (nth_error_nth _ _ _ H). reflexivity.
Qed.

(** the graph of dynamic_mincut: no vertices have been contracted *)
Definition fresh (G : mg) : Prop := m_orig G = m_n G /\ m_pos G = seq 0 (m_n G) /\ m_cont G = map (fun i => [i]) (seq 0 (m_n G)).

Lemma fresh_step G o G' : mvalid G -> fresh G -> (forall s t w, o = DAdd s t w -> s < m_n G /\ t < m_n G) -> g_step G o = Some G' -> fresh G' /\ mvalid G' /\ m_n G' = m_n G.
Proof.
  intros MV (A & B & D) R H.
  assert (X : (mvalid G' /\ m_n G' = m_n G) /\ m_orig G' = m_orig G /\ m_pos G' = m_pos G /\ m_cont G' = m_cont G).
  { destruct o as [s t w|s t]; cbn [g_step] in H.
    - split. { destruct (R s t w eq_refl) as [Hs Ht]. destruct (add_graph G _ s t w MV eq_refl Hs Ht) as (G1 & E & V1 & N1 & _). rewrite E in H. injection H as <-. auto. }
      assert (Y : forall s t, m_new_edge G s t w = Some G' -> m_orig G' = m_orig G /\ m_pos G' = m_pos G /\ m_cont G' = m_cont G).
      { intros a b E. unfold m_new_edge in E. destruct (a <? b); [|injection E as <-; auto]. destruct (b <? m_n G); [|discriminate E]. injection E as <-. auto. }
      unfold new_edge_order in H. destruct (s <? t); [eauto|]. destruct (t <? s); [eauto|]. injection H as <-. auto.
    - destruct (edge_to (nth s (m_rows G) []) t 0) as [[e w]|] eqn:E; [|injection H as <-; auto]. split.
      + destruct (rem_graph G _ s t e w MV eq_refl E) as (_ & _ & _ & G1 & E1 & V1 & N1 & _). rewrite E1 in H. injection H as <-. auto.
      + unfold m_delete_edge in H. destruct (slot (m_rows G) s e) as [[[? ?] ?]|]; [|discriminate H].
        match type of H with match ?a with _ => _ end = _ => destruct a; [|discriminate H] end. match type of H with match ?a with _ => _ end = _ => destruct a; [|discriminate H] end. injection H as <-. auto. }
  destruct X as ((V' & N') & X1 & X2 & X3). split; [|auto]. unfold fresh. rewrite N', X1, X2, X3. auto.
Qed.

(** on a fresh graph the cactus of C74 is the one that C43 and C60 ask for *)
Lemma fresh_cactus G c M g : fresh G -> is_mincut (m_n G) (gw G) c -> min_cactus G c M g -> cactus_ok (m_n G) (mwt G) c M /\ full (m_n G) (mwt G) c M.
Proof.
  intros (A & B & D) Min [V La O Rg Sa Pl Mb (L1 & L2 & L3 & L4) Ed Two Ap Lw So Co].
  assert (Id : forall x, x < m_n G -> nth x (m_pos G) 0 = x) by (intros x Hx; rewrite B, seq_nth; auto).
  assert (P : forall x, x < m_n G -> mpos M x = g x). { intros x Hx. unfold mpos. rewrite Pl; [rewrite Id; auto|lia|rewrite Id; auto]. }
  split; [constructor; auto|].
  - split; [lia|]. intros p x Hp. rewrite Mb, L4. split.
    + intros (X1 & X2 & X3). split; [auto|]. rewrite A in X1. rewrite Id in X3 by auto. change (mpos M x = p). rewrite P; auto.
    + intros (X1 & X2). rewrite A in X1. rewrite Id by auto. split; [lia|]. split; [auto|]. rewrite <- P; auto.
  - lia.
  - intros x Hx. rewrite P by auto. apply Rg; auto.
  - intros f Pf Ef. destruct (So f Pf Ef) as [P1 E1]. assert (X : forall x, x < m_n G -> f (mpos M x) = f (g x)) by (intros x Hx; rewrite P; auto). split.
    + destruct P1 as [(u & Hu & Eu) (v & Hv & Ev)]. split; [exists u|exists v]; rewrite X by auto; auto.
    + rewrite <- E1. apply cutw_ext. exact X.
  - intros S PS ES. destruct (Co S PS ES) as (S' & E' & X). exists S'. split; [exact E'|]. intros u Hu. rewrite P; auto.
Qed.

(** C74, both calls together: s and t any two vertices and the limit any value.  Below the limit the value is a smallest cut
    between s and t, and if it is the minimum cut and all minimum cuts separate s and t, the cactus shows exactly these *)
Theorem C74_flow_and_cactus : forall G s t D pick gl k, mvalid G -> fresh G -> s < m_n G -> t < m_n G -> s <> t -> D <= m_n G -> (forall j q, q <> [] -> In (pick k j q) q) ->
  exists fuel, forall fuel' lim, fuel <= fuel' -> let '(x, fl) := code_flow D fuel' pick gl k G s t lim in
    if (x <? lim)%N then is_stcut (m_n G) (mwt G) s t x /\
      ((x < 2 ^ 32)%N -> is_mincut (m_n G) (mwt G) x -> (forall S, proper (m_n G) S -> cutw (m_n G) (mwt G) S = x -> S s <> S t) ->
       cactus_ok (m_n G) (mwt G) x (code_rebuild k G s x fl) /\ full (m_n G) (mwt G) x (code_rebuild k G s x fl))
    else forall S, S s <> S t -> (lim <= cutw (m_n G) (mwt G) S)%N.
Proof.
  intros G s t D pick gl k HG FG Hs Ht Nst HD Pk. assert (V : valid_rows (m_rows G)) by apply HG.
  destruct (C73_two_terminals (m_rows G) s t D (pick k) (gl k) V Hs Ht Nst HD Pk) as (fuel & H). exists fuel. intros fuel' lim Hf. destruct (H (Z.of_N lim)) as (x & fl & Run & HX).
  unfold code_flow. rewrite (Run fuel' Hf). destruct (Z.ltb_spec x (Z.of_N lim)) as [L|L].
  - destruct HX as (MF & c & -> & SC). rewrite N2Z.id. destruct (N.ltb_spec c lim); [|lia]. split; [exact SC|]. intros C32 Min Sep. pose proof FG as (A & B & D0).
    pose proof (stored_ok k (m_rows G) fl) as ST. destruct (C74_rebuild G s t c (fun v e => nth e (nth v fl []) 0%Z) k (stored k (m_rows G) fl) s HG) as (M & g & EM & HM); auto.
    + rewrite B, seq_length. lia.
    + rewrite D0. set (F := fun i : nat => [i]). rewrite (nth_indep _ [] (F 0)) by (rewrite map_length, seq_length; auto). rewrite map_nth, seq_nth by auto. reflexivity.
    + lia.
    + rewrite B, seq_nth by auto. reflexivity.
    + unfold code_rebuild. rewrite EM. apply (fresh_cactus G c M g FG Min HM).
  - destruct (N.ltb_spec (Z.to_N x) lim); [lia|]. intros S DS. specialize (HX S DS). unfold mwt. change (length (m_rows G)) with (m_n G) in HX. lia.
Qed.
Print Assumptions C74_flow_and_cactus.

(** ** the data structure with these two calls *)

(** what is still asked of the static algorithms on the graphs of the history *)
Record static_answers (n : nat) (Q : nat -> mg -> Prop) (all : nat -> mg -> option N -> N * mg) (noi : nat -> mg -> N) (ord : nat -> list nat -> list nat) : Prop := {
  sa_all : forall k G, Q k G -> cactus_ok n (mwt G) (fst (all k G None)) (snd (all k G None));
  sa_known : forall k G c, Q k G -> is_mincut n (mwt G) c -> cactus_ok n (mwt G) (fst (all k G (Some c))) (snd (all k G (Some c)));
  sa_noi : forall k G, Q k G -> is_mincut n (mwt G) (noi k G);
  sa_ord : forall k l, Permutation (ord k l) l }.
Record static_full (n : nat) (Q : nat -> mg -> Prop) (all : nat -> mg -> option N -> N * mg) : Prop := {
  sf_all : forall k G, Q k G -> full n (mwt G) (fst (all k G None)) (snd (all k G None));
  sf_known : forall k G c, Q k G -> is_mincut n (mwt G) c -> full n (mwt G) (fst (all k G (Some c))) (snd (all k G (Some c))) }.

Lemma history_fresh n : forall ops G, mvalid G -> fresh G -> m_n G = n -> (forall s t w, In (DAdd s t w) ops -> s < n /\ t < n) ->
  forall k G', g_run G (firstn k ops) = Some G' -> fresh G' /\ mvalid G' /\ m_n G' = n.
Proof.
  induction ops as [|o ops IH]; intros G MV FG N R k G' H; [rewrite firstn_nil in H; injection H as <-; auto|]. destruct k as [|k]; cbn [firstn g_run] in H; [injection H as <-; auto|].
  destruct (g_step G o) as [G1|] eqn:E; [|discriminate H]. destruct (fresh_step G o G1 MV FG) as (F1 & V1 & N1); [intros s t w ->; rewrite N; apply (R s t w); left; auto|exact E|].
  apply (IH G1 V1 F1 ltac:(congruence)) with (k := k); auto. intros s t w I. apply (R s t w). right. auto.
Qed.

(** enough fuel for finitely many calls *)
Lemma max_fuel (P : nat -> nat -> Prop) m : (forall i, i < m -> exists f, forall f', f <= f' -> P i f') -> exists f, forall f' i, f <= f' -> i < m -> P i f'.
Proof.
  induction m as [|m IH]; intro H; [exists 0; intros; lia|]. destruct IH as (f & Hf); [intros i Hi; apply H; lia|]. destruct (H m ltac:(lia)) as (f1 & H1). exists (f + f1).
  intros f' i Hl Hi. destruct (Nat.eq_dec i m) as [->|]; [apply H1; lia|apply Hf; lia].
Qed.

Lemma code_answers n all noi D pick gl ord G ops : static_answers n (at_call G ops) all noi ord -> mvalid G -> fresh G -> m_n G = n -> (forall s t w, In (DAdd s t w) ops -> s < n /\ t < n) ->
  (forall k G' c, at_call G ops k G' -> is_mincut n (mwt G') c -> (c < 2 ^ 32)%N) -> D <= n -> (forall k j q, q <> [] -> In (pick k j q) q) ->
  exists fuel, forall fuel', fuel <= fuel' -> answers n (at_call G ops) all noi (code_flow D fuel' pick gl) code_rebuild ord /\
    (static_full n (at_call G ops) all -> answers_full n (at_call G ops) all (code_flow D fuel' pick gl) code_rebuild).
Proof.
  intros [A1 A2 A3 A4] MV FG N R B32 HD Pk.
  set (OK := fun k s t f => forall G', at_call G ops k G' -> s <> t -> forall lim, let '(x, fl) := code_flow D f pick gl k G' s t lim in
    if (x <? lim)%N then is_stcut n (mwt G') s t x /\
      ((x < 2 ^ 32)%N -> is_mincut n (mwt G') x -> (forall S, proper n S -> cutw n (mwt G') S = x -> S s <> S t) ->
       cactus_ok n (mwt G') x (code_rebuild k G' s x fl) /\ full n (mwt G') x (code_rebuild k G' s x fl))
    else forall S, S s <> S t -> (lim <= cutw n (mwt G') S)%N).
  assert (ONE : forall k s t, s < n -> t < n -> exists f, forall f', f <= f' -> OK k s t f').
  { intros k s t Hs Ht. destruct (Nat.eq_dec s t) as [->|Nst]; [exists 0; intros f' _ G' _ X; congruence|].
    destruct (g_run G (firstn k ops)) as [G'|] eqn:EG; [|exists 0; intros f' _ G' [_ X]; congruence].
    destruct (history_fresh n ops G MV FG N R k G' EG) as (F' & V' & N').
    destruct (C74_flow_and_cactus G' s t D pick gl k V' F' ltac:(lia) ltac:(lia) Nst ltac:(lia) (Pk k)) as (f & Hf). exists f. intros f' L G1 [_ E1] _ lim.
    assert (G1 = G') as -> by congruence. specialize (Hf f' lim L). rewrite N' in Hf. exact Hf. }
  assert (ALL : exists f, forall f' k, f <= f' -> k < S (length ops) -> forall s t, s < n -> t < n -> OK k s t f').
  { apply (max_fuel (fun k f => forall s t, s < n -> t < n -> OK k s t f)). intros k _.
    destruct (max_fuel (fun s f => forall t, t < n -> OK k s t f) n) as (f & Hf); [|exists f; intros f' L s t Hs Ht; apply (Hf f' s L Hs t Ht)].
    intros s Hs. destruct (max_fuel (fun t f => OK k s t f) n) as (f & Hf); [intros t Ht; apply ONE; auto|]. exists f. intros f' L t Ht. apply Hf; auto. }
  destruct ALL as (f & Hf). exists f. intros f' L.
  assert (REB : forall k G1 s t lim c fl, at_call G ops k G1 -> s < n -> t < n -> s <> t -> code_flow D f' pick gl k G1 s t lim = (c, fl) -> (c < lim)%N -> is_mincut n (mwt G1) c ->
    (forall S, proper n S -> cutw n (mwt G1) S = c -> S s <> S t) -> cactus_ok n (mwt G1) c (code_rebuild k G1 s c fl) /\ full n (mwt G1) c (code_rebuild k G1 s c fl)).
  { intros k G1 s t lim c fl AC Hs Ht Nst E Lc Min Sep. pose proof (Hf f' k L ltac:(destruct AC; lia) s t Hs Ht G1 AC Nst lim) as H. rewrite E in H. destruct (N.ltb_spec c lim); [|lia]. destruct H as [_ H]. apply H; auto. apply (B32 k G1 c AC Min). }
  split; [|intros [F1 F2]]; constructor; auto.
  - intros k G1 s t lim AC _ _ Hs Ht Nst. pose proof (Hf f' k L ltac:(destruct AC; lia) s t Hs Ht G1 AC Nst lim) as H. destruct (code_flow D f' pick gl k G1 s t lim) as [x fl]. cbn [fst]. destruct (x <? lim)%N; [apply H|exact H].
  - intros k G1 s t lim c fl AC _ _ Hs Ht Nst E Lc Min Sep. apply (REB k G1 s t lim c fl AC Hs Ht Nst E Lc Min Sep).
  - intros k G1 s t lim c fl AC _ _ Hs Ht Nst E Lc Min Sep. apply (REB k G1 s t lim c fl AC Hs Ht Nst E Lc Min Sep).
Qed.

Lemma safe_range n : forall ops G, safe n G ops -> mvalid G -> m_n G = n -> forall s t w, In (DAdd s t w) ops -> s < n /\ t < n.
Proof.
  induction ops as [|o ops IH]; intros G SA MV N s t w I; [destruct I|]. cbn [safe] in SA. destruct SA as [S1 S2]. destruct I as [->|I]; [destruct (S1 s t w eq_refl) as (A & B & _); auto|].
  assert (X : exists G', g_step G o = Some G' /\ mvalid G' /\ m_n G' = n).
  { destruct o as [a b x|a b]; cbn [g_step].
    - destruct (S1 a b x eq_refl) as (Ha & Hb & _). destruct (add_graph G n a b x MV N Ha Hb) as (G1 & E & V1 & N1 & _). eauto.
    - destruct (edge_to (nth a (m_rows G) []) b 0) as [[e x]|] eqn:E; [|eauto]. destruct (rem_graph G n a b e x MV N E) as (_ & _ & _ & G1 & E1 & V1 & N1 & _). eauto. }
  destruct X as (G' & E & V' & N'). destruct (S2 G' E) as [_ S3]. apply (IH G' S3 V' N' s t w I).
Qed.

(** C43 and C60 with the limited push-relabel and decrementalRebuild in place of the assumptions about them: for every history
    with enough fuel the value is the minimum cut and the cactus shows exactly the minimum cuts *)
Theorem C74_dynamic : forall n all noi D pick gl ord G ops, static_answers n (at_call G ops) all noi ord -> mvalid G -> fresh G -> m_n G = n -> safe n G ops ->
  (forall k G' c, at_call G ops k G' -> is_mincut n (mwt G') c -> (c < 2 ^ 32)%N) -> D <= n -> (forall k j q, q <> [] -> In (pick k j q) q) ->
  exists fuel, forall fuel', fuel <= fuel' -> exists st, d_run all noi (code_flow D fuel' pick gl) code_rebuild ord 1 (d_init all G) ops = Some st /\ g_run G ops = Some (d_g st) /\
    is_mincut n (mwt (d_g st)) (d_cut st) /\ sound n (mwt (d_g st)) (d_cut st) (m_n (d_c st)) (mwt (d_c st)) (mpos (d_c st)) /\
    (static_full n (at_call G ops) all -> keeps n G ops -> complete n (mwt (d_g st)) (d_cut st) (m_n (d_c st)) (mwt (d_c st)) (mpos (d_c st))).
Proof.
  intros n all noi D pick gl ord G ops SA MV FG N SF B32 HD Pk.
  destruct (code_answers n all noi D pick gl ord G ops SA MV FG N (safe_range n ops G SF MV N) B32 HD Pk) as (f & Hf). exists f. intros f' L. destruct (Hf f' L) as [A FA].
  destruct (C43_value_partial n all noi (code_flow D f' pick gl) code_rebuild ord G ops A MV N SF) as (st & E & GE & M & S). exists st. do 4 (split; [assumption|]). intros FU KE.
  destruct (C60_complete_partial n all noi (code_flow D f' pick gl) code_rebuild ord G ops A (FA FU) MV N SF KE) as (st' & E' & _ & _ & _ & C). assert (st' = st) as -> by congruence. exact C.
Qed.
Print Assumptions C74_dynamic.

(** ** removals alone: nothing is asked but a right cactus at the start *)
Lemma removals_static {FL} all noi ord all' noi' ord' (flow : nat -> mg -> nat -> nat -> N -> N * FL) rebuild : forall ops k st, existsb is_add ops = false ->
  d_run all noi flow rebuild ord k st ops = d_run all' noi' flow rebuild ord' k st ops.
Proof.
  induction ops as [|o ops IH]; intros k st H; [reflexivity|]. cbn in H. apply orb_false_iff in H as [H1 H2]. destruct o as [s t w|s t]; [discriminate H1|]. cbn [d_run d_step].
  destruct (d_remove flow rebuild k st s t); [apply IH; auto|reflexivity].
Qed.

Theorem C74_removals : forall n (all : nat -> mg -> option N -> N * mg) noi D pick gl ord G ops, cactus_ok n (mwt G) (d_cut (d_init all G)) (d_c (d_init all G)) -> (d_cut (d_init all G) < 2 ^ 32)%N ->
  mvalid G -> fresh G -> m_n G = n -> existsb is_add ops = false -> D <= n -> (forall k j q, q <> [] -> In (pick k j q) q) ->
  exists fuel, forall fuel', fuel <= fuel' -> exists st, d_run all noi (code_flow D fuel' pick gl) code_rebuild ord 1 (d_init all G) ops = Some st /\ g_run G ops = Some (d_g st) /\
    is_mincut n (mwt (d_g st)) (d_cut st) /\ sound n (mwt (d_g st)) (d_cut st) (m_n (d_c st)) (mwt (d_c st)) (mpos (d_c st)).
Proof.
  intros n all noi D pick gl ord G ops K0 C0 MV FG N NA HD Pk. assert (DI : d_cut (d_init all G) = fst (all 0 G None) /\ d_c (d_init all G) = snd (all 0 G None)) by (unfold d_init; destruct (all 0 G None); auto). destruct DI as [D1 D2]. rewrite D1, D2 in *.
  set (all' := fun (k : nat) (G' : mg) (c : option BinNums.N) => if mg_dec G' G then all 0 G None else (mc G', two G')).
  assert (LO : forall ops G1, mvalid G1 -> m_n G1 = n -> existsb is_add ops = false -> forall k G2, g_run G1 (firstn k ops) = Some G2 -> mvalid G2 /\ m_n G2 = n /\ forall S, (cutw n (mwt G2) S <= cutw n (mwt G1) S)%N).
  { clear - n. induction ops as [|o ops IH]; intros G1 V1 N1 NA k G2 H; [rewrite firstn_nil in H; injection H as <-; split; [auto|split; [auto|lia]]|]. destruct k as [|k]; cbn [firstn g_run] in H; [injection H as <-; split; [auto|split; [auto|lia]]|].
    cbn in NA. apply orb_false_iff in NA as [O1 O2]. destruct o as [s t w|s t]; [discriminate O1|]. cbn [g_step] in H. destruct (edge_to (nth s (m_rows G1) []) t 0) as [[e w]|] eqn:E; [|apply (IH G1 V1 N1 O2 k G2 H)].
    destruct (rem_graph G1 n s t e w V1 N1 E) as (_ & _ & _ & G3 & E3 & V3 & N3 & X). rewrite E3 in H. destruct (IH G3 V3 N3 O2 k G2 H) as (V2 & N2 & Y). split; [auto|]. split; [auto|]. intro S. specialize (X S). specialize (Y S). destruct (Bool.eqb (S s) (S t)); lia. }
  assert (H2 : 2 <= n). { destruct (k_min _ _ _ _ K0) as [(S & [(u & Hu & Eu) (v & Hv & Ev)] & _) _]. assert (u <> v) by congruence. lia. }
  assert (OKA : forall k G' c, at_call G ops k G' -> cactus_ok n (mwt G') (fst (all' k G' c)) (snd (all' k G' c))).
  { intros k G' c [_ E]. unfold all'. destruct (mg_dec G' G) as [->|_]; [exact K0|]. destruct (LO ops G MV N NA k G' E) as (V' & N' & _). cbn [fst snd]. rewrite <- N'. apply two_ok; [lia|apply mwt_symm; auto]. }
  assert (SA : static_answers n (at_call G ops) all' (fun _ => mc) (fun _ l => l)).
  { constructor; auto. intros k G' [_ E]. destruct (LO ops G MV N NA k G' E) as (V' & N' & _). rewrite <- N'. apply mc_ok. lia. }
  destruct (C74_dynamic n all' (fun _ => mc) D pick gl (fun _ l => l) G ops SA MV FG N (removals_safe n ops G NA)) as (f & Hf); auto.
  - intros k G' c [_ E] [_ Min]. destruct (LO ops G MV N NA k G' E) as (V' & N' & Y). destruct (k_min _ _ _ _ K0) as [(S & P & ES) _]. specialize (Min S P). specialize (Y S). lia.
  - exists f. intros f' L. destruct (Hf f' L) as (st & E & GE & M & S & _). exists st. split; [|auto]. rewrite <- E.
    assert (d_init all G = d_init all' G) as -> by (unfold d_init, all'; destruct (mg_dec G G); [reflexivity|congruence]). apply removals_static. exact NA.
Qed.
Print Assumptions C74_removals.

(** ** Concrete cases *)
(** a path of six vertices, closed by an edge of weight 1, with a parallel and a skipping edge *)
Definition reb_ops : list mop := [NewEdge 0 1 3; NewEdge 1 2 1; NewEdge 2 3 3; NewEdge 3 4 3; NewEdge 4 5 2; NewEdge 0 5 1; NewEdge 1 2 2; NewEdge 3 5 1; NewEdge 1 5 0].
Definition reb : mg := mg_of 6 reb_ops.
Definition reb_all (k : nat) (G : mg) (c : option N) : N * mg := (mc G, two G).
Definition reb_rem : list dop := [DRem 0 5; DRem 1 5; DRem 1 2; DRem 4 5; DRem 2 3; DRem 0 1].
Definition reb_pick (k j : nat) (q : list nat) : nat := hd 0 q.
Lemma reb_valid : mvalid reb /\ m_n reb = 6.
Proof. destruct (mg_of_valid 6 reb_ops) as (MV & N & _); [vm_compute; reflexivity|]. exact (conj MV N). Qed.
Lemma reb_fresh : fresh reb.
Proof. split; [vm_compute; reflexivity|split; vm_compute; reflexivity]. Qed.
Lemma reb_start : cactus_ok 6 (mwt reb) (d_cut (d_init reb_all reb)) (d_c (d_init reb_all reb)) /\ (d_cut (d_init reb_all reb) < 2 ^ 32)%N.
Proof.
  destruct reb_valid as [MV N]. split.
  - change (cactus_ok 6 (mwt reb) (mc reb) (two reb)). rewrite <- N at 1. apply two_ok; [rewrite N; lia|apply mwt_symm; auto].
  - apply N.ltb_lt. vm_compute. reflexivity.
Qed.
Example c74_removals_case : exists fuel, forall fuel', fuel <= fuel' -> exists st, d_run reb_all (fun _ => mc) (code_flow 1 fuel' reb_pick (fun _ _ => false)) code_rebuild (fun _ l => l) 1 (d_init reb_all reb) reb_rem = Some st /\
  g_run reb reb_rem = Some (d_g st) /\ is_mincut 6 (mwt (d_g st)) (d_cut st).
Proof.
  destruct reb_start as (A & B). destruct reb_valid as (MV & N).
  destruct (C74_removals 6 reb_all (fun _ => mc) 1 reb_pick (fun _ _ => false) (fun _ l => l) reb reb_rem A B MV reb_fresh N eq_refl ltac:(lia)) as (f & Hf); [intros k j [|x q] H; [congruence|left; reflexivity]|].
  exists f. intros f' L. destruct (Hf f' L) as (st & X & Y & Z & _). exists st. auto.
Qed.
(** the value, the places of the vertices and the rows of the cactus at the start and after the removals: the first leaves four cuts in a row *)
Example c74_removals_run : map (fun k => option_map (fun st => (d_cut st, m_pos (d_c st), map (map fst) (m_rows (d_c st))))
    (d_run reb_all (fun _ => mc) (code_flow 1 50 reb_pick (fun _ _ => false)) code_rebuild (fun _ l => l) 1 (d_init reb_all reb) (firstn k reb_rem))) [0; 1; 3; 4; 5; 6] =
  [Some (4%N, [1; 1; 1; 1; 1; 0], [[(1, 4%N)]; [(0, 4%N)]]);
   Some (3%N, [0; 1; 2; 3; 3; 4], [[(1, 3%N)]; [(0, 3%N); (2, 3%N)]; [(1, 3%N); (3, 3%N)]; [(2, 3%N); (4, 3%N)]; [(3, 3%N)]]);
   Some (2%N, [0; 0; 1; 1; 1; 1], [[(1, 2%N)]; [(0, 2%N)]]);
   Some (1%N, [0; 0; 0; 0; 0; 1], [[(1, 1%N)]; [(0, 1%N)]]);
   Some (0%N, [0; 0; 0; 1; 1; 1], [[(1, 0%N)]; [(0, 0%N)]]);
   Some (0%N, [0; 0; 0; 1; 1; 1], [[(1, 0%N)]; [(0, 0%N)]])].
Proof. vm_compute. reflexivity. Qed.

(** insertions and removals with complete answers of the static algorithm: the history of C60 *)
Example c74_dynamic_case : static_answers 5 (at_call p5 p5_edit) (b_all p5 1) b_noi b_ord /\ static_full 5 (at_call p5 p5_edit) (b_all p5 1) /\ mvalid p5 /\ fresh p5 /\ m_n p5 = 5 /\ safe 5 p5 p5_edit /\
  keeps 5 p5 p5_edit /\ forall k G' c, at_call p5 p5_edit k G' -> is_mincut 5 (mwt G') c -> (c < 2 ^ 32)%N.
Proof.
  destruct c60_case as ([A1 A2 A3 A4 A5 A6] & [F1 F2 F3] & MV & N & SA & KE). assert (FR : fresh p5) by (split; [vm_compute; reflexivity|split; vm_compute; reflexivity]).
  assert (HI : forall k G', at_call p5 p5_edit k G' -> mvalid G' /\ m_n G' = 5) by (intros k G' [_ E]; apply (history_fresh 5 p5_edit p5 MV FR N (safe_range 5 p5_edit p5 SA MV N) k G' E)).
  split; [constructor; intros; auto; [apply A1|apply A2|apply A3]; auto; apply (HI k G H)|]. split; [constructor; intros; [apply F1|apply F2]; auto; apply (HI k G H)|].
  do 5 (split; [assumption|]). intros k G' c AC Min. destruct (HI k G' AC) as [V' N'].
  assert (B : forallb (fun k => match g_run p5 (firstn k p5_edit) with Some G => (mc G <? 2 ^ 32)%N | None => true end) (seq 0 6) = true) by (vm_compute; reflexivity).
  destruct AC as [L E]. rewrite forallb_forall in B. specialize (B k). rewrite E in B. destruct (mc_ok G' ltac:(lia)) as (_ & _ & M). rewrite N' in M. rewrite (mincut_unique _ _ _ _ Min M). apply N.ltb_lt. apply B. apply in_seq. cbn in L. lia.
Qed.
