(* P_Heavy3.v - proofs about removeHeavyEdges and reInsertVertices, part 3: all leaves, out and back in reverse order. *)
From Verif Require Import SpecCut SpecDyn SpecMutable M_Mutable P_Mutable P_Mutable2 P_Mutable3 P_Cut P_LocalSearch P_LocalSearch2 P_AllMincuts P_MutableIO Prop_Mutable P_Dynamic P_Dynamic2 M_StCactus M_Merge M_Recursive P_ContractStd2 P_StCactus9 P_Merge2 P_Merge3 P_Recursive2 P_Leaf P_Recursive9 P_Heavy P_Heavy2.

Lemma fold_opt_app {A B} (f : A -> B -> option A) l l' : forall a, fold_opt f (l ++ l') a = match fold_opt f l a with Some b => fold_opt f l' b | None => None end.
Proof. induction l as [|x l IH]; intro a; [reflexivity|]. cbn. destruct (f a x); auto. Qed.

(** one leaf is put back *)
Lemma re_leaf_ok n c A F R y ec : (0 < c)%N -> rep_live n c A F R -> (forall Y Y', (forall x, x < n -> A x -> Y x = Y' x) -> F Y -> F Y') -> y < n -> A y -> (forall x, In x ec -> x < n /\ ~ A x) ->
  exists R2, re_leaf c R (y, ec) = Some R2 /\ rep_live n c (fun x => A x \/ In x ec) (with_leaf n A y ec F) R2.
Proof.
  intros Pc RP Ext Hy Ay Hec. destruct (add_leaf n c Pc A F R RP Ext y Hy Ay ec Hec) as (R2 & E & L). exists R2. split; [|exact L].
  unfold re_leaf. cbn [fst snd]. rewrite (nth_error_nth' (m_pos R) 0) by (rewrite (rl_lp _ _ _ _ _ RP); auto). unfold new_edge_order. pose proof (rl_range _ _ _ _ _ RP y Hy Ay) as X. rewrite <- (rl_last _ _ _ _ _ RP) in X. apply Nat.ltb_lt in X. rewrite X. exact E.
Qed.
Lemma mincuts_live_ext n c (A : nat -> Prop) G Y Y' : (forall x, x < n -> A x -> Y x = Y' x) -> mincuts_live n c A G Y -> mincuts_live n c A G Y'.
Proof. intros E (S & P & ES & B). exists S. split; [auto|]. split; [auto|]. intros x Hx Ax. rewrite <- E by auto. auto. Qed.

(** the marked vertices: different, in the graph, and leaves *)
Definition marked (n : nat) (c : N) (G : mg) (xs : list nat) : Prop :=
  NoDup (map (fun x => nth x (m_pos G) 0) xs) /\ forall x, In x xs -> x < n /\ live G x /\ exists t, lone c G (nth x (m_pos G) 0) t.

Lemma leaves_ok n c : (0 < c)%N -> forall xs G ce, lv n c G -> marked n c G xs ->
  exists G2 ce1, fold_opt he_leaf xs (G, ce) = Some (G2, ce ++ ce1) /\ lv n c G2 /\ (forall x, x < n -> (live G2 x <-> live G x /\ ~ In x (concat (map snd ce1)))) /\
    forall C, rep_live n c (live G2) (mincuts_live n c (live G2) G2) C -> exists C', re_leaves c ce1 C = Some C' /\ rep_live n c (live G) (mincuts_live n c (live G) G) C'.
Proof.
  intro Pc. induction xs as [|x xs IH]; intros G ce LV [ND MK]; cbn [fold_opt].
  - exists G, []. rewrite app_nil_r. split; [auto|]. split; [auto|]. split; [cbn; tauto|]. intros C RC. exists C. split; [reflexivity|auto].
  - destruct (Nat.ltb_spec 2 (m_n G)) as [N3|N3].
    + destruct (MK x (or_introl eq_refl)) as (Hx & Lx & t & LO). inversion ND as [|? ? Nx ND']; subst.
      destruct (leaf_step n c Pc G LV N3 x Hx Lx t LO ce) as (G1 & y & E & LV1 & N1 & Hy & Ly & LI & PO & LN & CU). rewrite E.
      set (ec := nth (nth x (m_pos G) 0) (m_cont G) []) in *.
      assert (Iec : forall z, In z ec <-> (z < n /\ nth z (m_pos G) 0 = nth x (m_pos G) 0)). { intro z. unfold ec. rewrite (proj2 (lv_groups _ _ _ LV) _ z Lx), (lv_lp _ _ _ LV). tauto. }
      assert (MK1 : forall z, In z xs -> z < n /\ live G z /\ nth z (m_pos G) 0 <> nth x (m_pos G) 0 /\ exists t, lone c G (nth z (m_pos G) 0) t).
      { intros z I. destruct (MK z (or_intror I)) as (A & B & C). split; [auto|]. split; [auto|]. split; [|auto]. intro Q. apply Nx. apply in_map_iff. exists z. auto. }
      destruct (IH G1 (ce ++ [(y, ec)]) LV1) as (G2 & ce1 & E2 & LV2 & LI2 & RE).
      { split.
        - rewrite (map_ext_in _ (fun z => renb (nth x (m_pos G) 0) (m_n G - 1) (nth z (m_pos G) 0))).
          + rewrite <- (map_map (fun z => nth z (m_pos G) 0)). apply NoDup_map_in; [|auto]. intros a b Ia Ib Q. apply in_map_iff in Ia as (za & <- & Ia), Ib as (zb & <- & Ib).
            destruct (MK1 za Ia) as (_ & La & Na & _), (MK1 zb Ib) as (_ & Lb & Nb & _). destruct (renb_rg (m_n G) _ Lx _ La Na) as [_ <-]. destruct (renb_rg (m_n G) _ Lx _ Lb Nb) as [_ <-]. rewrite Q. reflexivity.
          + intros z I. destruct (MK1 z I) as (A & B & C & _). apply PO; auto.
        - intros z I. destruct (MK1 z I) as (A & B & C & (t' & D)). split; [auto|]. split; [apply LI; auto; split; [auto|rewrite Iec; intros [_ Q]; auto]|].
          rewrite (PO z A B C). eexists. apply LN; eauto. }
      exists G2, ((y, ec) :: ce1). rewrite E2, <- app_assoc. split; [reflexivity|]. split; [auto|]. split.
      * intros z Hz. rewrite (LI2 z Hz), (LI z Hz). cbn [map concat snd]. rewrite in_app_iff. tauto.
      * intros C RC. destruct (RE C RC) as (C1 & EC & RC1).
        assert (Hec : forall z, In z ec -> z < n /\ ~ live G1 z). { intros z I. pose proof (proj1 (Iec z) I) as [Hz _]. split; [auto|]. intro Lz. apply LI in Lz as [_ Lz]; auto. }
        destruct (re_leaf_ok n c (live G1) _ C1 y ec Pc RC1 (mincuts_live_ext n c (live G1) G1) Hy Ly Hec) as (C2 & EC2 & RC2).
        exists C2. split; [unfold re_leaves in *; cbn [rev]; rewrite fold_opt_app, EC; cbn [fold_opt]; rewrite EC2; reflexivity|].
        eapply live_iff; [| |exact RC2].
        -- intros z Hz. cbv beta. rewrite (LI z Hz). split; [intros [[A _]|I]; [auto|]|].
           ++ unfold live. rewrite (proj2 (proj1 (Iec z) I)). auto.
           ++ intro A. destruct (in_dec Nat.eq_dec z ec); [right|left]; auto.
        -- intro Y. symmetry. apply CU.
    + unfold he_leaf at 1. cbn [fst]. destruct (Nat.ltb_spec 2 (m_n G)); [lia|]. apply IH; auto. split; [inversion ND; auto|]. intros z I. apply MK. right. auto.
Qed.
