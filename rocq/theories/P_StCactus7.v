(* P_StCactus7.v - proofs about findSTCactus, part 7: the contracted graph. *)
From Verif Require Import SpecCut SpecDyn SpecMutable M_Mutable P_Mutable P_Cut P_LocalSearch2 P_AllMincuts M_StCactus P_Crossing P_StCactus P_StCactus4 P_StCactus5.

Definition tgts (row : list half) : list nat := map (fun h => fst (fst h)) row.

(** ** rows *)
Lemma wt_sum R a b : wt (adj R) a b = sumN (fun h : half => if fst (fst h) =? b then snd (fst h) else 0%N) (nth a R []).
Proof. unfold wt. rewrite adj_nth. induction (nth a R []) as [|h l IH]; [reflexivity|]. cbn [map sumN fst snd filter]. rewrite <- IH. destruct (fst (fst h) =? b); [reflexivity|]. rewrite N.add_0_l. reflexivity. Qed.

Lemma pairs_from_tgts row : forall l, tgts row = l -> NoDup l -> pairs_of row = map (fun b => (b, sumN (fun h : half => if fst (fst h) =? b then snd (fst h) else 0%N) row)) l.
Proof.
  induction row as [|[[t w] r] row IH]; intros l E ND; cbn [tgts map] in E; subst l; [reflexivity|]. cbn [fst snd map pairs_of sumN] in *. inversion ND as [|? ? N1 N2]; subst. fold (tgts row) in *. fold (pairs_of row).
  rewrite Nat.eqb_refl. f_equal.
  - f_equal. rewrite sumN_zero; [lia|]. intros h Ih. destruct (Nat.eqb_spec (fst (fst h)) t) as [Q|]; [|reflexivity]. exfalso. apply N1. rewrite <- Q. unfold tgts. apply in_map_iff. eauto.
  - rewrite (IH _ eq_refl N2). apply map_ext_in. intros b Ib. f_equal. destruct (Nat.eqb_spec t b) as [->|]; [contradiction|]. lia.
Qed.

Definition near (x : nat) (e : nat * nat) : list nat := if fst e =? x then [snd e] else if snd e =? x then [fst e] else [].

Lemma new_edge_more G s t w : mvalid G -> s < t -> t < m_n G -> exists G', m_new_edge G s t w = Some G' /\ mvalid G' /\ m_n G' = m_n G /\
  wstep (wt (adj (m_rows G))) (wt (adj (m_rows G'))) (m_n G) s t 0 w /\ m_pos G' = m_pos G /\ m_cont G' = m_cont G /\ m_orig G' = m_orig G /\
  forall x, tgts (nth x (m_rows G') []) = tgts (nth x (m_rows G) []) ++ near x (s, t).
Proof.
  intros V Hst Ht. destruct (new_edge_ok G s t w V Hst Ht) as (G' & E & V' & N' & Ws & P & C). exists G'. split; [auto|]. split; [auto|]. split; [auto|]. split; [auto|]. split; [auto|]. split; [auto|].
  unfold m_new_edge in E. destruct (Nat.ltb_spec s t); [|lia]. destruct (Nat.ltb_spec t (m_n G)); [|lia]. injection E as <-. cbn [m_orig m_rows]. split; [reflexivity|]. intro x. unfold push, near. cbn [fst snd].
  unfold m_n in *. rewrite nth_upd, upd_length. destruct (Nat.eqb_spec x t) as [->|].
  - destruct (Nat.ltb_spec t (length (m_rows G))); [|lia]. cbn [andb]. rewrite nth_upd. destruct (Nat.eqb_spec t s); [lia|]. cbn [andb]. destruct (Nat.eqb_spec s t); [lia|]. rewrite Nat.eqb_refl. unfold tgts. rewrite map_app. reflexivity.
  - cbn [andb]. rewrite nth_upd. destruct (Nat.eqb_spec x s) as [->|].
    + destruct (Nat.ltb_spec s (length (m_rows G))); [|lia]. cbn [andb]. rewrite Nat.eqb_refl. unfold tgts. rewrite map_app. reflexivity.
    + cbn [andb]. destruct (Nat.eqb_spec s x); [lia|]. destruct (Nat.eqb_spec t x); [lia|]. rewrite app_nil_r. reflexivity.
Qed.

Lemma pairs_fold : forall es M, mvalid M -> (forall a b, In (a, b) es -> a < b /\ b < m_n M) ->
  exists M', fold_opt (fun M e => m_new_edge M (fst e) (snd e) 0) es M = Some M' /\ mvalid M' /\ m_n M' = m_n M /\ m_pos M' = m_pos M /\ m_cont M' = m_cont M /\ m_orig M' = m_orig M /\
    (forall a b, a < m_n M -> b < m_n M -> wt (adj (m_rows M')) a b = wt (adj (m_rows M)) a b) /\
    (forall x, tgts (nth x (m_rows M') []) = tgts (nth x (m_rows M) []) ++ flat_map (near x) es).
Proof.
  induction es as [|[a b] es IH]; intros M V B; cbn [fold_opt fst snd].
  - exists M. repeat (split; [auto|]). intro x. cbn. rewrite app_nil_r. reflexivity.
  - destruct (B a b (or_introl eq_refl)) as [Hab Hb]. destruct (new_edge_more M a b 0 V Hab Hb) as (M1 & E1 & V1 & N1 & W1 & P1 & C1 & O1 & T1). rewrite E1.
    destruct (IH M1 V1) as (M' & E' & V' & N' & P' & C' & O' & W' & T'). { intros a' b' I. rewrite N1. apply B. right. auto. }
    exists M'. split; [exact E'|]. split; [auto|]. split; [congruence|]. split; [congruence|]. split; [congruence|]. split; [congruence|]. split.
    + intros x y Hx Hy. rewrite W' by lia. specialize (W1 x y Hx Hy). destruct (_ || _) in W1; lia.
    + intro x. rewrite T', T1, <- app_assoc. reflexivity.
Qed.

Lemma near_none x a l : a <> x -> (forall b, In b l -> b <> x) -> flat_map (near x) (map (fun b => (a, b)) l) = [].
Proof.
  intros Na H. induction l as [|b l IH]; [reflexivity|]. cbn [map flat_map]. rewrite IH by (intros; apply H; right; auto). unfold near. cbn [fst snd].
  destruct (Nat.eqb_spec a x); [contradiction|]. destruct (Nat.eqb_spec b x) as [Q|]; [destruct (H b (or_introl eq_refl) Q)|reflexivity].
Qed.
Lemma near_self x l : flat_map (near x) (map (fun b => (x, b)) l) = l.
Proof. induction l as [|b l IH]; [reflexivity|]. cbn [map flat_map]. rewrite IH. unfold near. cbn [fst]. rewrite Nat.eqb_refl. reflexivity. Qed.
Lemma near_one x a l : a <> x -> In x l -> NoDup l -> flat_map (near x) (map (fun b => (a, b)) l) = [a].
Proof.
  intros Na. induction l as [|b l IH]; intros I ND; [destruct I|]. inversion ND; subst. cbn [map flat_map]. unfold near at 1. cbn [fst snd]. destruct (Nat.eqb_spec a x); [contradiction|].
  destruct (Nat.eqb_spec b x) as [->|Nb].
  - rewrite near_none; auto. intros b Ib ->. contradiction.
  - destruct I as [|I]; [contradiction|]. cbn [app]. auto.
Qed.
Lemma flat_map_map {A B C} (f : B -> list C) (g : A -> list B) l : flat_map f (flat_map g l) = flat_map (fun x => flat_map f (g x)) l.
Proof. induction l as [|x l IH]; [reflexivity|]. cbn. rewrite flat_map_app, IH. reflexivity. Qed.
Lemma flat_map_in {A B} (f g : A -> list B) l : (forall x, In x l -> f x = g x) -> flat_map f l = flat_map g l.
Proof. induction l as [|x l IH]; intro H; [reflexivity|]. cbn. rewrite H by (left; auto). rewrite IH; auto. intros; apply H; right; auto. Qed.
Lemma filter_all {A} (p : A -> bool) l : (forall x, In x l -> p x = true) -> filter p l = l.
Proof. induction l as [|x l IH]; intro H; [reflexivity|]. cbn. rewrite H by (left; auto). rewrite IH; auto. intros; apply H; right; auto. Qed.
Lemma others_eq x k : x < k -> filter (fun b => negb (b =? x)) (seq 0 k) = seq 0 x ++ seq (S x) (k - S x).
Proof.
  intro H. replace k with (x + S (k - S x)) at 1 by lia. rewrite seq_app. cbn [seq plus]. rewrite filter_app. cbn [filter]. rewrite Nat.eqb_refl. cbn [negb].
  rewrite !filter_all; [reflexivity|..]; intros y Iy; apply in_seq in Iy; apply negb_true_iff, Nat.eqb_neq; lia.
Qed.
Lemma pairs_tgts k x : x < k -> flat_map (near x) (sc_pairs k) = filter (fun b => negb (b =? x)) (seq 0 k).
Proof.
  intro H. rewrite others_eq by auto. unfold sc_pairs. rewrite flat_map_map.
  rewrite (flat_map_in _ (fun a => if a <? x then [a] else if a =? x then seq (S x) (k - S x) else [])).
  - assert (Es : seq 0 k = seq 0 x ++ x :: seq (S x) (k - S x)). { replace k with (x + S (k - S x)) at 1 by lia. rewrite seq_app. reflexivity. }
    rewrite Es, flat_map_app. cbn [flat_map]. rewrite Nat.ltb_irrefl, Nat.eqb_refl.
    rewrite (flat_map_in _ (fun a => [a]) (seq 0 x)). 2: { intros a Ia. apply in_seq in Ia. destruct (Nat.ltb_spec a x); [reflexivity|lia]. }
    rewrite (flat_map_in _ (fun a => []) (seq (S x) (k - S x))). 2: { intros a Ia. apply in_seq in Ia. destruct (Nat.ltb_spec a x); [lia|]. destruct (Nat.eqb_spec a x); [lia|reflexivity]. }
    assert (Z1 : forall l : list nat, flat_map (fun a => [a]) l = l) by (induction l as [|y l IH]; [reflexivity|]; cbn [flat_map app]; rewrite IH; reflexivity). rewrite Z1. f_equal. assert (Z : flat_map (fun _ : nat => @nil nat) (seq (S x) (k - S x)) = []) by (generalize (seq (S x) (k - S x)); induction l; auto). rewrite Z. apply app_nil_r.
  - intros a Ia. apply in_seq in Ia. destruct (Nat.ltb_spec a x).
    + apply near_one; [lia|apply in_seq; lia|apply seq_NoDup].
    + destruct (Nat.eqb_spec a x) as [->|]; [apply near_self|]. apply near_none; [auto|]. intros b Ib. apply in_seq in Ib. lia.
Qed.

(** ** weights *)
Lemma set_tgts R v e w R' : set_wgt R v e w = Some R' -> forall x, tgts (nth x R' []) = tgts (nth x R []).
Proof.
  unfold set_wgt, slot. intros E x. destruct (nth_error (nth v R []) e) as [[[t w0] r]|] eqn:S; [|discriminate E]. injection E as <-. unfold rset. rewrite nth_upd.
  destruct (Nat.eqb_spec x v) as [->|]; [|reflexivity]. destruct (v <? length R); [|reflexivity]. cbn [andb]. unfold tgts. revert S. generalize (nth v R []) as l. clear. intros l. revert e. induction l as [|h l IH]; intros [|e] S; try discriminate S; cbn in *.
  - injection S as ->. reflexivity.
  - f_equal. apply IH. exact S.
Qed.
Lemma set_weight_more G v e t w0 r w : mvalid G -> slot (m_rows G) v e = Some (t, w0, r) ->
  exists G', m_set_weight G v e w = Some G' /\ mvalid G' /\ m_n G' = m_n G /\ wstep (wt (adj (m_rows G))) (wt (adj (m_rows G'))) (m_n G) v t w0 w /\
    m_pos G' = m_pos G /\ m_cont G' = m_cont G /\ m_orig G' = m_orig G /\ forall x, tgts (nth x (m_rows G') []) = tgts (nth x (m_rows G) []).
Proof.
  intros V S. destruct (set_weight_ok G v e t w0 r w V S) as (G' & E & V' & N' & Ws & P & C). exists G'. repeat (split; [assumption|]).
  unfold m_set_weight in E. rewrite S in E. destruct (set_wgt (m_rows G) v e w) as [R1|] eqn:E1; [|discriminate E]. destruct (set_wgt R1 t r w) as [R2|] eqn:E2; [|discriminate E]. injection E as <-. cbn [with_rows m_orig m_rows].
  split; [reflexivity|]. intro x. rewrite (set_tgts _ _ _ _ _ E2), (set_tgts _ _ _ _ _ E1). reflexivity.
Qed.

Section Edges.
Context (v : list nat) (G : mg) (k : nat) (HG : mvalid G) (Lv : m_n G <= length v) (Bv : forall u, u < m_n G -> nth u v 0 < k).
Let f u := nth u v 0.

(** a complete graph on k vertices with sorted rows *)
Definition sorted_complete (M : mg) : Prop := mvalid M /\ m_n M = k /\ forall x, x < k -> tgts (nth x (m_rows M) []) = filter (fun b => negb (b =? x)) (seq 0 k).
Definition adds (x y : nat) (e : nat * half) : N :=
  let a := f (fst e) in let b := f (fst (fst (snd e))) in
  if (b <? a) && (((a =? x) && (b =? y)) || ((a =? y) && (b =? x))) then snd (fst (snd e)) else 0%N.

Lemma edge_ok M u h : u < m_n G -> In h (nth u (m_rows G) []) -> sorted_complete M ->
  exists M', sc_edge v u M h = Some M' /\ sorted_complete M' /\ m_pos M' = m_pos M /\ m_cont M' = m_cont M /\ m_orig M' = m_orig M /\
    forall x y, x < k -> y < k -> wt (adj (m_rows M')) x y = (wt (adj (m_rows M)) x y + adds x y (u, h))%N.
Proof.
  intros Hu Ih (V & Nk & T). assert (Ht : fst (fst h) < m_n G). { destruct h as [[t w] r]. apply In_nth_error in Ih. destruct Ih as [e S]. destruct HG as [VR _]. apply (VR u e t w r S). }
  unfold sc_edge. rewrite (nth_error_nth' v 0) by lia. rewrite (nth_error_nth' v 0) by lia. fold (f u) (f (fst (fst h))). unfold adds. cbn [fst snd]. set (a := f u). set (b := f (fst (fst h))).
  assert (Ha : a < k) by (apply Bv; auto). assert (Hb : b < k) by (apply Bv; auto). destruct (Nat.ltb_spec b a) as [Q|Q].
  - assert (S : exists w0 r, slot (m_rows M) a b = Some (b, w0, r)).
    { unfold slot. specialize (T a Ha). rewrite others_eq in T by auto. assert (E : nth_error (tgts (nth a (m_rows M) [])) b = Some b).
      { rewrite T, nth_error_app1 by (rewrite seq_length; lia). rewrite (nth_error_nth' _ 0) by (rewrite seq_length; lia). rewrite seq_nth by lia. reflexivity. }
      unfold tgts in E. rewrite nth_error_map in E. match type of E with option_map _ ?o = _ => destruct o as [[[t w0] r]|] eqn:Eo end; cbn [option_map fst snd] in E; [|discriminate E]. injection E as ->. exists w0, r. exact Eo. }
    destruct S as (w0 & r & S). rewrite S. cbn [fst snd]. destruct (set_weight_more M a b b w0 r (snd (fst h) + w0) V S) as (M' & E & V' & N' & Ws & P & C & O & T').
    exists M'. split; [exact E|]. split; [|repeat (split; [assumption|])].
    + split; [auto|]. split; [congruence|]. intros x Hx. rewrite T'. apply T; auto.
    + intros x y Hx Hy. cbn [andb]. specialize (Ws x y ltac:(lia) ltac:(lia)). rewrite (Nat.eqb_sym a x), (Nat.eqb_sym b y), (Nat.eqb_sym a y), (Nat.eqb_sym b x).
      rewrite (andb_comm (x =? b)) in Ws. destruct (_ || _) in Ws |- *; lia.
  - exists M. split; [reflexivity|]. split; [split; auto|]. repeat (split; [reflexivity|]). intros x y Hx Hy. cbn [andb]. lia.
Qed.
Lemma edges_ok u : u < m_n G -> forall row M, (forall h, In h row -> In h (nth u (m_rows G) [])) -> sorted_complete M ->
  exists M', fold_opt (sc_edge v u) row M = Some M' /\ sorted_complete M' /\ m_pos M' = m_pos M /\ m_cont M' = m_cont M /\ m_orig M' = m_orig M /\
    forall x y, x < k -> y < k -> wt (adj (m_rows M')) x y = (wt (adj (m_rows M)) x y + sumN (fun h => adds x y (u, h)) row)%N.
Proof.
  intro Hu. induction row as [|h row IH]; intros M Ir Sc; cbn [fold_opt].
  - exists M. repeat (split; [auto|]). intros x y _ _. cbn. lia.
  - destruct (edge_ok M u h Hu (Ir h (or_introl eq_refl)) Sc) as (M1 & E1 & S1 & P1 & C1 & O1 & W1). rewrite E1. destruct (IH M1) as (M' & E' & S' & P' & C' & O' & W'); auto. { intros; apply Ir; right; auto. }
    exists M'. split; [exact E'|]. split; [auto|]. split; [congruence|]. split; [congruence|]. split; [congruence|]. intros x y Hx Hy. rewrite W', W1 by auto. cbn [sumN]. lia.
Qed.
Lemma vertices_ok : forall us M, (forall u, In u us -> u < m_n G) -> sorted_complete M ->
  exists M', fold_opt (sc_vertex v G) us M = Some M' /\ sorted_complete M' /\ m_pos M' = m_pos M /\ m_cont M' = m_cont M /\ m_orig M' = m_orig M /\
    forall x y, x < k -> y < k -> wt (adj (m_rows M')) x y = (wt (adj (m_rows M)) x y + sumN (fun u => sumN (fun h => adds x y (u, h)) (nth u (m_rows G) [])) us)%N.
Proof.
  induction us as [|u us IH]; intros M Iu Sc; cbn [fold_opt].
  - exists M. repeat (split; [auto|]). intros x y _ _. cbn. lia.
  - unfold sc_vertex at 1. destruct (edges_ok u (Iu u (or_introl eq_refl)) (nth u (m_rows G) []) M (fun h H => H) Sc) as (M1 & E1 & S1 & P1 & C1 & O1 & W1). rewrite E1. destruct (IH M1) as (M' & E' & S' & P' & C' & O' & W'); auto. { intros; apply Iu; right; auto. }
    exists M'. split; [exact E'|]. split; [auto|]. split; [congruence|]. split; [congruence|]. split; [congruence|]. intros x y Hx Hy. rewrite W', W1 by auto. cbn [sumN]. lia.
Qed.

(** the weights added up are those of the contraction *)
Lemma row_class u y : u < m_n G -> sumN (fun h : half => if f (fst (fst h)) =? y then snd (fst h) else 0%N) (nth u (m_rows G) []) = bsum (m_n G) (fun z => if f z =? y then wt (adj (m_rows G)) u z else 0%N).
Proof.
  intro Hu. destruct HG as [VR _]. transitivity (bsum (m_n G) (fun z => sumN (fun h : half => if (fst (fst h) =? z) && (f z =? y) then snd (fst h) else 0%N) (nth u (m_rows G) []))).
  - assert (B : forall h, In h (nth u (m_rows G) []) -> fst (fst h) < m_n G). { intros [[t w] r] Ih. apply In_nth_error in Ih. destruct Ih as [e S]. apply (VR u e t w r S). }
    revert B. generalize (nth u (m_rows G) []) as l. induction l as [|h l IH]; intro B; cbn [sumN]; [symmetry; apply bsum_zero; reflexivity|]. rewrite bsum_add, <- IH by (intros; apply B; right; auto). f_equal.
    rewrite <- (bsum_single (m_n G) (fun z => if f z =? y then snd (fst h) else 0%N) (fst (fst h))) by (apply B; left; auto). apply bsum_ext. intros z Hz. rewrite (Nat.eqb_sym z). destruct (fst (fst h) =? z); reflexivity.
  - apply bsum_ext. intros z Hz. rewrite wt_sum. destruct (f z =? y).
    + apply sumN_ext. intros h _. rewrite andb_true_r. reflexivity.
    + apply sumN_zero. intros h _. rewrite andb_false_r. reflexivity.
Qed.
Lemma sum_adds x y : y < x -> sumN (fun u => sumN (fun h => adds x y (u, h)) (nth u (m_rows G) [])) (seq 0 (m_n G)) =
  bsum (m_n G) (fun u => bsum (m_n G) (fun z => if (f u =? x) && (f z =? y) then wt (adj (m_rows G)) u z else 0%N)).
Proof.
  intro Hxy. unfold bsum at 1. apply sumN_ext. intros u Iu. apply in_seq in Iu. transitivity (if f u =? x then sumN (fun h : half => if f (fst (fst h)) =? y then snd (fst h) else 0%N) (nth u (m_rows G) []) else 0%N).
  - destruct (Nat.eqb_spec (f u) x) as [Q|Q].
    + apply sumN_ext. intros h _. unfold adds. cbn [fst snd]. rewrite Q, Nat.eqb_refl. cbn [andb]. destruct (Nat.eqb_spec (f (fst (fst h))) y) as [->|]; cbn [andb orb].
      * destruct (Nat.ltb_spec y x); [|lia]. reflexivity.
      * destruct (Nat.eqb_spec x y); [lia|]. rewrite andb_false_r. reflexivity.
    + apply sumN_zero. intros h _. unfold adds. cbn [fst snd]. destruct (Nat.eqb_spec (f u) x); [contradiction|]. cbn [andb orb]. destruct (Nat.ltb_spec (f (fst (fst h))) (f u)); [|reflexivity]. destruct (Nat.eqb_spec (f u) y); [|reflexivity]. destruct (Nat.eqb_spec (f (fst (fst h))) x); [lia|reflexivity].
  - rewrite row_class by lia. destruct (f u =? x); [reflexivity|]. symmetry. apply bsum_zero. reflexivity.
Qed.
End Edges.
