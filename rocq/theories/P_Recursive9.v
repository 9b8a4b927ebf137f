(* P_Recursive9.v - proofs about internalRecursiveCactus, part 9: the branch that takes a single vertex out and puts it back as a leaf. *)
From Coq Require Import Relations.
From Verif Require Import SpecCut SpecDyn SpecFlow SpecMutable LibZ M_Mutable P_Mutable P_Mutable7 P_Cut P_LocalSearch P_LocalSearch2 P_AllMincuts P_MutableIO M_PushRelabel P_Flow6 M_LimFlow Prop_Flow Prop_LimFlow M_Scc P_Scc Prop_StCactus P_FlowChain M_Rebuild P_Rebuild Prop_Rebuild P_IsoFlow2 P_Kernel5 P_Recursive M_StCactus M_Merge M_Branch M_Recursive P_StCactus8 P_StCactus9 P_ContractStd P_ContractStd2 P_Merge2 P_Merge3 P_Recursive2 P_Recursive3 P_Recursive5 P_Recursive6 P_Recursive7 P_Leaf.

(** like good, but only the original vertices of A are in the graph *)
Record good_live (n : nat) (c : N) (A : nat -> Prop) (G : mg) : Prop := {
  gl_valid : mvalid G; gl_last : m_last G = m_n G; gl_orig : m_orig G = n; gl_lp : length (m_pos G) = n;
  gl_range : forall x, x < n -> A x -> nth x (m_pos G) 0 < m_n G;
  gl_groups : forall p x, p < m_n G -> (In x (nth p (m_cont G) []) <-> (x < n /\ A x /\ nth x (m_pos G) 0 = p));
  gl_lens : length (m_part G) = m_n G /\ length (m_cut G) = m_n G /\ length (m_cont G) = m_n G;
  gl_full : forall p, p < m_n G -> nth p (m_cont G) [] <> [];
  gl_nopar : no_parallel (m_rows G); gl_nozero : no_zero (m_rows G);
  gl_low : atleast c (m_n G) (wt (adj (m_rows G))); gl_some : 1 <= m_n G }.
Definition mincuts_live (n : nat) (c : N) (A : nat -> Prop) (G : mg) (Y : nat -> bool) : Prop :=
  exists S, proper (m_n G) S /\ gcut G S = c /\ forall x, x < n -> A x -> Y x = S (nth x (m_pos G) 0).

Lemma good_is_live n c G : good n c G -> good_live n c (fun _ => True) G.
Proof.
  intros [A1 A2 A3 A4 A5 A6 A7 A8 A9 A10 A11 A12]. constructor; auto. intros p x Hp. destruct A6 as [_ A6]. rewrite (A6 p x Hp), A4. tauto.
Qed.
Lemma live_iff n c A A' F F' M : (forall x, x < n -> (A x <-> A' x)) -> (forall Y, F Y <-> F' Y) -> rep_live n c A F M -> rep_live n c A' F' M.
Proof.
  intros EA EF [A1 A2 A3 A4 A0 A5 A6 A7 A8 A9 A10 A11 A12]. constructor; auto.
  - intros x Hx Ax. apply A5; auto. apply EA; auto.
  - intros p x Hp. rewrite (A6 p x Hp). split; intros (B1 & B2 & B3); (split; [auto|]); (split; [apply EA; auto|auto]).
  - intros f Pf E. apply EF. auto.
  - intros Y FY. apply EF in FY. destruct (A12 Y FY) as (f & E & B). exists f. split; [auto|]. intros x Hx Ax. apply B; auto. apply EA; auto.
Qed.

Section Leaf.
Context (n : nat) (c : N) (Pc : (0 < c)%N) (G : mg) (GD : good n c G) (rec : nat -> mg -> option (mg * nat)).
Context (Rec : forall A pid H, good_live n c A H -> m_n H < m_n G -> exists N pid', rec pid H = Some (N, pid') /\ rep_live n c A (mincuts_live n c A H) N).
Context (s e t : nat) (w : N) (r : nat) (Sl : slot (m_rows G) s e = Some (t, w, r)).
(** the leaf is one end, and it is the only minimum cut between the ends *)
Let ctr := if (nth s (m_deg G) 0 =? c)%N then s else t.
Let other := if ctr =? s then t else s.
Context (Dg : nth ctr (m_deg G) 0%N = c) (Un : forall S, gcut G S = c -> S s <> S t -> forall u, u < m_n G -> u <> ctr -> S u = S other).

Lemma ctr_ends : (ctr = s /\ other = t) \/ (ctr = t /\ other = s).
Proof.
  destruct (ends_ok n c G GD s e t w r Sl) as (_ & _ & N & _). unfold other, ctr. destruct (nth s (m_deg G) 0 =? c)%N; [rewrite Nat.eqb_refl; auto|]. destruct (Nat.eqb_spec t s); [congruence|auto].
Qed.

Lemma leaf_ok pid : exists M pid', leaf_branch c rec G s e t pid = Some (M, pid') /\ rep n c (mincuts_of n c G) M.
Proof.
  destruct (ends_ok n c G GD s e t w r Sl) as (Hs & Ht & Nst & _). pose proof ctr_ends as CE.
  assert (Hc : ctr < m_n G) by (destruct CE as [[-> _]|[-> _]]; auto). assert (Ho : other < m_n G) by (destruct CE as [[_ ->]|[_ ->]]; auto). assert (Nco : ctr <> other) by (destruct CE as [[-> ->]|[-> ->]]; auto).
  destruct (edge_ok n c G GD s e t w r Sl Nst) as (H & h & EH & GH & Less & CL & ME & CO & PO).
  assert (ME' : forall a b, a < m_n G -> b < m_n G -> (h a = h b <-> a = b \/ ((a = ctr \/ a = other) /\ (b = ctr \/ b = other)))). { intros a b Ha Hb. rewrite (ME a b Ha Hb). destruct CE as [[-> ->]|[-> ->]]; tauto. }
  assert (Hco : h ctr = h other) by (apply ME'; auto).
  assert (InG : forall p x, p < m_n G -> (In x (nth p (m_cont G) []) <-> (x < n /\ nth x (m_pos G) 0 = p))). { intros p x Hp. rewrite (proj2 (gd_groups _ _ _ GD) p x Hp), (gd_lp _ _ _ GD). tauto. }
  unfold leaf_branch. fold ctr. fold other. rewrite EH.
  pose proof (gd_full _ _ _ GD ctr Hc) as Fc. pose proof (gd_full _ _ _ GD other Ho) as Fo.
  set (ec := nth ctr (m_cont G) []) in *. set (eo := nth other (m_cont G) []) in *.
  assert (Iec : forall x, In x ec <-> (x < n /\ nth x (m_pos G) 0 = ctr)) by (intro x; apply InG; auto).
  assert (Ieo : forall x, In x eo <-> (x < n /\ nth x (m_pos G) 0 = other)) by (intro x; apply InG; auto).
  destruct ec as [|x0 ec'] eqn:Eec; [congruence|]. rewrite <- Eec in *. clear Fc. destruct eo as [|y eo'] eqn:Eeo; [congruence|]. rewrite <- Eeo in *. clear Fo.
  assert (Ix0 : In x0 ec) by (rewrite Eec; left; auto). assert (Iy : In y eo) by (rewrite Eeo; left; auto).
  destruct (proj1 (Iec x0) Ix0) as [Hx0 Px0]. destruct (proj1 (Ieo y) Iy) as [Hy Py].
  rewrite (nth_error_nth' (m_pos H) 0) by (rewrite (gd_lp _ _ _ GH); auto). rewrite PO, Px0 by auto. set (cv := h ctr) in *. assert (Hcv : cv < m_n H) by (apply CL; auto).
  (* the graph without the vertices of the leaf *)
  destruct (gd_lens _ _ _ GH) as (L1 & L2 & L3). unfold he_fill at 1, set_cont. destruct (Nat.ltb_spec cv (length (m_cont H))); [|lia].
  set (H1 := mk_mg (m_rows H) (m_deg H) (m_part H) (m_cut H) (m_pos H) (upd (m_cont H) cv eo) (m_last H) (m_ne H) (m_pc H) (m_orig H)).
  destruct (set_all_ok cv eo H1) as (H2 & E2 & SC & C2 & Q1 & Q2 & LP2 & P2). { intros x I. cbn. rewrite (gd_lp _ _ _ GH). apply Ieo in I. apply I. }
  rewrite E2. cbn [H1 m_pos] in LP2, P2. rewrite (gd_lp _ _ _ GH) in LP2, P2. destruct SC as (K1 & K2 & K3 & K4 & K5). cbn [H1 m_rows m_deg m_ne m_last m_orig m_cont m_part m_cut] in *.
  assert (NH : m_n H2 = m_n H) by (unfold m_n; rewrite K1; auto).
  assert (PH : forall x, x < n -> nth x (m_pos H2) 0 = h (nth x (m_pos G) 0)).
  { intros x Hx. rewrite P2 by auto. destruct (existsb (Nat.eqb x) eo) eqn:Q; [|apply PO; auto]. apply existsb_exists in Q as (x' & I & Q). apply Nat.eqb_eq in Q. subst x'. apply Ieo in I as [_ ->]. exact Hco. }
  assert (Cut : forall S, gcut H2 S = gcut G (fun u => S (h u))). { intro S. unfold gcut at 1. unfold m_n. rewrite K1. apply (contraction_cut (m_n G) _ h (m_n H)); [apply CL|auto]. }
  set (A := fun x => ~ In x ec). assert (Ay : A y). { intro I. apply Iec in I. apply Nco. lia. }
  assert (Dec : forall x, A x \/ In x ec). { intro x. destruct (in_dec Nat.eq_dec x ec); [right|left]; auto. }
  assert (GL : good_live n c A H2).
  { constructor.
    - destruct (gd_valid _ _ _ GH) as (W1 & W2 & W3). split; [|split]; rewrite ?K1, ?K2, ?K3; auto.
    - rewrite K4, NH. apply GH.
    - rewrite K5. apply GH.
    - exact LP2.
    - intros x Hx _. rewrite PH, NH by auto. apply CL, (gd_range _ _ _ GD). auto.
    - intros p x Hp. rewrite NH in Hp. rewrite C2, nth_upd. destruct (Nat.eqb_spec p cv) as [->|Np].
      + rewrite L3. destruct (Nat.ltb_spec cv (m_n H)); [|lia]. cbn [andb]. rewrite Ieo. split.
        * intros [Hx Q]. split; [auto|]. split; [intro I; apply Iec in I; lia|]. rewrite PH, Q by auto. auto.
        * intros (Hx & Nx & Q). split; [auto|]. rewrite PH in Q by auto. unfold cv in Q. apply ME' in Q; auto; [|apply GD; auto]. destruct Q as [Q|[[Q|Q] _]]; auto; exfalso; apply Nx, Iec; auto.
      + cbn [andb]. rewrite (proj2 (gd_groups _ _ _ GH) p x Hp), (gd_lp _ _ _ GH). split.
        * intros [Hx Q]. split; [auto|]. split; [|rewrite PH by auto; rewrite <- PO by auto; auto]. intro I. apply Iec in I as [_ I]. apply Np. rewrite <- Q, PO, I by auto. reflexivity.
        * intros (Hx & _ & Q). split; [auto|]. rewrite PO by auto. rewrite <- PH by auto. auto.
    - rewrite NH, Q1, Q2, C2, upd_length. auto.
    - intros p Hp. rewrite NH in Hp. rewrite C2, nth_upd. destruct ((p =? cv) && (cv <? length (m_cont H))); [rewrite Eeo; discriminate|apply GH; auto].
    - rewrite K1. apply GH.
    - rewrite K1. apply GH.
    - rewrite NH, K1. apply GH.
    - rewrite NH. apply GH. }
  destruct (Rec A pid H2 GL ltac:(lia)) as (R & pid' & ER & RR). rewrite ER.
  rewrite (nth_error_nth' (m_pos R) 0) by (rewrite (rl_lp _ _ _ _ _ RR); auto).
  destruct (add_leaf n c Pc A _ R RR) with (y := y) (ec := ec) as (R2 & E & LR); auto.
  { intros Y Y' EY (S & PS & ES & B). exists S. split; [auto|]. split; [auto|]. intros x Hx Ax. rewrite <- EY by auto. auto. }
  { intros x I. split; [apply Iec in I; apply I|]. intro Nx. apply Nx. auto. }
  destruct (m_new_edge (new_empty_node R) (nth y (m_pos R) 0) (m_last R) c) as [R1|]; [|discriminate E]. rewrite E. cbn [option_map]. exists R2, pid'. split; [reflexivity|].
  apply live_rep. eapply live_iff; [| |exact LR]; [intros x Hx; split; auto|]. intro Y. split.
  - intros [(b & B1 & B2)|((S & PS & ES & B) & Yl)].
    + exists (fun u => if u =? ctr then negb b else b). split; [|split].
      * destruct b; cbn [negb]; split; [exists other|exists ctr|exists ctr|exists other]; (split; [auto|]); try (rewrite Nat.eqb_refl; reflexivity); destruct (Nat.eqb_spec other ctr); congruence.
      * assert (X : gcut G (fun u => u =? ctr) = c) by (rewrite <- Dg; symmetry; apply (degree_cut G ctr (gd_valid _ _ _ GD) Hc)).
        assert (Sy : symm (m_n G) (wt (adj (m_rows G)))) by (apply valid_symm; apply (gd_valid _ _ _ GD)). rewrite <- X. destruct b; cbn [negb].
        -- unfold gcut. rewrite <- (cutw_compl (m_n G) _ (fun u => u =? ctr) Sy). apply cutw_ext. intros u Hu. destruct (u =? ctr); reflexivity.
        -- apply gcut_ext. intros u Hu. destruct (u =? ctr); reflexivity.
      * intros x Hx. destruct (Nat.eqb_spec (nth x (m_pos G) 0) ctr) as [Q|Q]; [apply B2, Iec; auto|apply B1; auto]. intro I. apply Iec in I as [_ I]. auto.
    + rewrite NH in PS. exists (fun u => S (h u)). split; [eapply proper_pull; eauto|]. split; [rewrite <- Cut; auto|]. intros x Hx. destruct (Dec x) as [Ax|I].
      * rewrite B, PH by auto. reflexivity.
      * rewrite Yl, B, PH, Py by auto. apply Iec in I as [_ I]. rewrite I. unfold cv in Hco. rewrite Hco. reflexivity.
  - intros (S & PS & ES & B). destruct (Bool.bool_dec (S s) (S t)) as [Q|Q].
    + right. assert (Qo : S ctr = S other) by (destruct CE as [[-> ->]|[-> ->]]; auto).
      destruct (descend (m_n G) h (m_n H) S CL) as (T & ET). { intros u v Hu Hv X. apply ME' in X; auto. destruct X as [->|[[->| ->] [->| ->]]]; congruence. }
      split; [|intros x I; apply Iec in I as [Hx I]; rewrite !B, I, Py by auto; exact Qo]. exists T. split; [|split].
      * rewrite NH. destruct PS as [(a & Ha & Sa) (b & Hb & Sb)]. split; [exists (h a)|exists (h b)]; (split; [apply CL; auto|]); rewrite ET; auto.
      * rewrite Cut, <- ES. apply gcut_ext. intros u Hu. apply ET. auto.
      * intros x Hx _. rewrite B, PH, ET by (auto; apply GD; auto). reflexivity.
    + left. exists (S other). assert (Qo : S ctr = negb (S other)). { destruct CE as [[-> ->]|[-> ->]]; clear - Q; destruct (S s), (S t); try reflexivity; exfalso; apply Q; reflexivity. }
      split.
      * intros x Hx Ax. rewrite B by auto. apply Un; auto; [apply GD; auto|]. intro X. apply Ax, Iec. auto.
      * intros x I. apply Iec in I as [Hx I]. rewrite B, I by auto. exact Qo.
Qed.
End Leaf.
