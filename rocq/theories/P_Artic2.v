(* P_Artic2.v - the stack of the depth-first search; it visits everything and ends. *)
From Verif Require Import SpecRel P_UnionFind P_Cut P_Mutable P_MutableIO P_Multi P_Kernel.
From Verif Require Export P_Artic.

Section DFS.
Context (R : list (list half)).
Let n := length R.
Notation nb := (ap_nbrs R).
Hypothesis NR : forall v t, In t (nb v) -> v < n /\ t < n /\ t <> v.
Hypothesis NS : forall v t, In t (nb v) -> In v (nb t).
Notation V s x := (a_vis s x = true).

(** the stack is the concatenation of one segment per vertex of the path: the neighbours it pushed that are still there;
    up: the segments above *)
Fixpoint SI (vis : nat -> bool) (par : nat -> option nat) (up path st : list nat) : Prop :=
  match path with
  | [] => st = []
  | p :: path' => exists seg st', st = seg ++ st' /\ (forall t, In t (nb p) -> vis t = true \/ In t seg) /\
      (forall t, In t seg -> In t (nb p) /\ (vis t = false -> ~ In t up -> par t = Some p)) /\ SI vis par (up ++ seg) path' st'
  end.

Lemma SI_mono vis par vis' par' : (forall t, vis t = true -> vis' t = true) -> forall path up up' st,
  (forall t, vis' t = false -> In t up -> In t up') -> (forall t, vis' t = false -> ~ In t up' -> par' t = par t) ->
  SI vis par up path st -> SI vis' par' up' path st.
Proof.
  intro VV. assert (VF : forall t, vis' t = false -> vis t = false) by (intros t H; destruct (vis t) eqn:E; [rewrite (VV t E) in H; discriminate H|reflexivity]).
  induction path as [|p path IH]; intros up up' st U P H; [exact H|]. destruct H as (seg & st' & -> & A & B & C).
  exists seg, st'. split; [auto|]. split; [intros t Ht; destruct (A t Ht); auto|]. split.
  - intros t Ht. destruct (B t Ht) as [B1 B2]. split; [auto|]. intros Q N. rewrite P by auto. apply B2; auto.
  - apply (IH (up ++ seg)); auto.
    + intros t Q H. apply in_app_or in H. apply in_or_app. destruct H; auto.
    + intros t Q N. apply P; auto. intro H. apply N, in_or_app. auto.
Qed.

Lemma SI_owner vis par : forall path up st t, SI vis par up path st -> In t st -> vis t = false -> ~ In t up -> exists q, In q path /\ par t = Some q /\ In t (nb q).
Proof.
  induction path as [|p path IH]; intros up st t H I Q N; [cbn in H; subst; destruct I|]. destruct H as (seg & st' & -> & A & B & C).
  destruct (in_dec Nat.eq_dec t seg) as [J|J].
  - destruct (B t J) as [B1 B2]. exists p. split; [left; auto|]. auto.
  - apply in_app_or in I. destruct I as [I|I]; [contradiction|]. destruct (IH _ _ t C I Q) as (q & Hq & X).
    + intro H. apply in_app_or in H. destruct H; contradiction.
    + exists q. split; [right; auto|auto].
Qed.

Lemma SI_pop vis par : forall path up x st, SI vis par up path (x :: st) -> vis x = true -> SI vis par up path st.
Proof.
  induction path as [|p path IH]; intros up x st H Q; [discriminate H|]. destruct H as (seg & st' & E & A & B & C). destruct seg as [|y seg].
  - cbn in E. subst st'. exists [], st. split; [reflexivity|]. split; [auto|]. split; [intros t []|]. apply (IH (up ++ []) x); auto.
  - cbn in E. injection E as <- ->. exists seg, st'. split; [reflexivity|]. split; [|split].
    + intros t Ht. destruct (A t Ht) as [H|[<-|H]]; auto.
    + intros t Ht. apply B. right. auto.
    + apply (SI_mono vis par vis par) with (up := up ++ x :: seg); auto. intros t Nt H. apply in_app_or in H. apply in_or_app. destruct H as [H|[<-|H]]; [auto|congruence|auto].
Qed.

Record same_but (s s' : apst) : Prop := { sb_vis : a_vis s' = a_vis s; sb_par : a_par s' = a_par s; sb_stack : a_stack s' = a_stack s; sb_step : a_step s' = a_step s }.

(** backtracking to an unvisited vertex on top of the stack ends at its parent *)
Lemma backtrack_ok v : forall path s st, Inv R s path -> SI (a_vis s) (a_par s) [] path (v :: st) -> a_vis s v = false ->
  exists s' p rest, ap_backtrack R s path v = (s', p :: rest) /\ Inv R s' (p :: rest) /\ same_but s s' /\ a_par s v = Some p /\ In v (nb p) /\ last (p :: rest) 0 = last path 0 /\
    exists seg st', st = seg ++ st' /\ (forall t, In t (nb p) -> V s t \/ t = v \/ In t seg) /\
      (forall t, In t seg -> In t (nb p) /\ (a_vis s t = false -> a_par s t = Some p)) /\ SI (a_vis s) (a_par s) (v :: seg) rest st'.
Proof.
  induction path as [|b path IH]; intros s st I S Q; [discriminate S|]. pose proof S as (seg & st' & E & A & B & C). cbn [ap_backtrack].
  destruct seg as [|y seg].
  - cbn in E. subst st'. cbn [app] in C. destruct (SI_owner _ _ _ _ _ v C (or_introl eq_refl) Q (fun H => H)) as (q & Hq & Eq & _).
    pose proof (path_head R NR NS s b path I) as NP. assert (Nbq : b <> q) by (intros ->; contradiction).
    assert (P : is_par (a_par s v) b = false) by (apply is_par_no; congruence). rewrite P. destruct path as [|c rest]; [destruct Hq|].
    destruct (leave_ok R NR NS s b c rest I) as [I' L]; [intros t Ht; destruct (A t Ht) as [H|[]]; auto|].
    set (s1 := fold_left (ap_leave_edge b) (nb b) s) in *. clearbody s1. destruct L as [L1 L2 L3 L4 L5 _ _ _ _ _ _].
    destruct (IH s1 st I') as (s' & p & r & X1 & X2 & X3 & X4 & X5 & X6 & X7); [rewrite L1, L3; exact C|congruence|].
    rewrite L1, L3 in *. exists s', p, r. split; [auto|]. split; [auto|]. split; [destruct X3; constructor; congruence|]. split; [auto|]. split; [auto|]. split; [exact X6|auto].
  - cbn in E. injection E as <- ->. destruct (B v (or_introl eq_refl)) as [B1 B2]. specialize (B2 Q (fun H => H)). rewrite B2, (proj2 (is_par_ok (Some b) b) eq_refl).
    exists s, b, path. split; [auto|]. split; [auto|]. split; [constructor; auto|]. split; [auto|]. split; [auto|]. split; [reflexivity|]. exists seg, st'. split; [auto|]. split; [|split].
    + intros t Ht. destruct (A t Ht) as [H|[H|H]]; auto.
    + intros t Ht. destruct (B t (or_intror Ht)) as [Y1 Y2]. split; auto.
    + exact C.
Qed.

Definition Phi (s : apst) : N := (N.of_nat (length (a_stack s)) + bsum n (fun v => if a_vis s v then 0 else N.of_nat (length (nb v))))%N.

Definition LInv (s : apst) (path : list nat) : Prop := Inv R s path /\ path <> [] /\ SI (a_vis s) (a_par s) [] path (a_stack s).

Lemma phi_enter s s' v : v < n -> a_vis s v = false -> a_vis s' = fset (a_vis s) v true -> length (a_stack s') <= length (nb v) + length (a_stack s) -> (Phi s' <= Phi s)%N.
Proof.
  intros Hv Q E L. unfold Phi. rewrite E.
  assert (X : (bsum n (fun x => if a_vis s x then 0 else N.of_nat (length (nb x))) = bsum n (fun x => if fset (a_vis s) v true x then 0 else N.of_nat (length (nb x))) + N.of_nat (length (nb v)))%N).
  { rewrite <- (bsum_single n (fun x => N.of_nat (length (nb x))) v Hv), <- bsum_add. apply bsum_ext. intros x Hx. unfold fset. destruct (Nat.eqb_spec x v) as [->|]; [rewrite Q; reflexivity|].
    destruct (a_vis s x); lia. }
  rewrite X. lia.
Qed.

Lemma loop_ok : forall fuel s path, LInv s path -> (Phi s < N.of_nat fuel)%N ->
  exists s' path', ap_loop fuel R s path = Some (s', path') /\ LInv s' path' /\ a_stack s' = [] /\ last path' 0 = last path 0 /\ (forall x, V s x -> V s' x).
Proof.
  induction fuel as [|fuel IH]; intros s path (I & NE & S) F; [lia|]. cbn [ap_loop]. destruct (a_stack s) as [|v st] eqn:ES.
  - exists s, path. split; [auto|]. split; [split; [auto|split; [auto|rewrite ES; exact S]]|]. auto.
  - cbn [a_vis a_disc a_par a_low a_aps a_step]. set (s0 := mk_ap (a_vis s) (a_disc s) (a_par s) (a_low s) st (a_aps s) (a_step s)).
    assert (I0 : Inv R s0 path).
    { destruct I. constructor; auto. intros x Vx Nx. destruct (i_fin x Vx Nx) as [X Y]. split; [auto|]. intro Z. destruct (Y Z). constructor; auto. }
    assert (F0 : (Phi s0 + 1 = Phi s)%N) by (unfold Phi, s0; cbn [a_stack a_vis]; rewrite ES; cbn [length]; lia).
    destruct (a_vis s v) eqn:Q.
    + destruct (IH s0 path) as (s' & path' & X1 & X2 & X3 & X4 & X5); [split; [auto|split; [auto|apply (SI_pop _ _ _ _ v); auto]]|lia|].
      exists s', path'. split; [auto|]. split; [auto|]. split; [auto|]. split; auto.
    + destruct (backtrack_ok v path s0 st I0 S Q) as (s1 & p & rest & -> & I1 & [B1 B2 B3 B4] & Pv & Nv & LP & seg & st' & E1 & A1 & A2 & A3).
      assert (Hv : v < n) by (apply (NR p v Nv)). change (a_vis s0) with (a_vis s) in *. change (a_par s0) with (a_par s) in *. change (a_stack s0) with st in *.
      destruct (enter_ok R NR NS s1 (p :: rest) v I1) as (I2 & sg & C1 & C2 & C3 & C4 & C5 & C6); [congruence|auto|left; exists p, rest; split; [auto|]; split; [congruence|auto]|].
      rewrite B1, B2, B3 in *. set (s2 := ap_enter R s1 v) in *. clearbody s2.
      destruct (IH s2 (v :: p :: rest)) as (s' & path' & X1 & X2 & X3 & X4 & X5).
      * split; [auto|]. split; [discriminate|]. rewrite C1, C4. exists sg, st. split; [auto|].
        assert (G1 : forall t, In t (nb v) -> fset (a_vis s) v true t = true \/ In t sg).
        { intros t Ht. unfold fset. destruct (Nat.eqb_spec t v); [auto|]. destruct (a_vis s t) eqn:E; [auto|]. right. apply C3. auto. }
        split; [exact G1|]. split; [intros t Ht; split; [apply C3 in Ht; tauto|auto]|]. cbn [app]. exists seg, st'. split; [auto|]. split; [|split].
        -- intros t Ht. unfold fset. destruct (Nat.eqb_spec t v); [auto|]. destruct (A1 t Ht) as [H|[H|H]]; auto.
        -- intros t Ht. destruct (A2 t Ht) as [Y1 Y2]. split; [auto|]. intros Z N. rewrite C6 by auto. apply Y2. unfold fset in Z. destruct (Nat.eqb_spec t v); [discriminate Z|auto].
        -- apply (SI_mono (a_vis s) (a_par s)) with (up := v :: seg); auto.
           ++ intros t Z. unfold fset. destruct (t =? v); auto.
           ++ intros t Z [<-|H]; [rewrite fset_eq in Z; discriminate Z|]. apply in_or_app. auto.
           ++ intros t Z N. apply C6. intro H. apply N, in_or_app. auto.
      * assert (Phi s2 <= Phi s0)%N; [|lia]. apply (phi_enter s0 s2 v); auto. rewrite C1. cbn [a_stack s0]. rewrite app_length. unfold s0. cbn [a_stack]. lia.
      * exists s', path'. split; [auto|]. split; [auto|]. split; [auto|]. split.
        -- rewrite X4, <- LP. reflexivity.
        -- intros x Vx. apply X5. rewrite C4. unfold fset. destruct (x =? v); auto.
Qed.

(** at the end only the root is left on the path *)
Lemma backtrack_end r : forall path s, Inv R s path -> path <> [] -> SI (a_vis s) (a_par s) [] path [] -> last path 0 = r -> a_par s r = Some r ->
  exists s', ap_backtrack R s path r = (s', [r]) /\ Inv R s' [r] /\ same_but s s' /\ forall t, In t (nb r) -> V s t.
Proof.
  induction path as [|b path IH]; intros s I NE S L Pr; [congruence|]. pose proof S as (seg & st' & E & A & B & C). symmetry in E. apply app_eq_nil in E. destruct E as [-> ->].
  cbn [ap_backtrack]. assert (NV : forall t, In t (nb b) -> V s t) by (intros t Ht; destruct (A t Ht) as [H|[]]; auto). destruct path as [|c rest].
  - cbn in L. subst b. rewrite Pr, (proj2 (is_par_ok (Some r) r) eq_refl). exists s. split; [auto|]. split; [auto|]. split; [constructor; auto|auto].
  - change (last (b :: c :: rest) 0) with (last (c :: rest) 0) in L. pose proof (path_head R NR NS s b (c :: rest) I) as NP.
    assert (In r (c :: rest)). { rewrite <- L. destruct (exists_last (l := c :: rest)) as (l' & z & El); [discriminate|]. rewrite El, last_last. apply in_or_app. right. left. auto. }
    assert (P : is_par (a_par s r) b = false) by (apply is_par_no; rewrite Pr; intro X; injection X as ->; contradiction). rewrite P.
    destruct (leave_ok R NR NS s b c rest I NV) as [I' LS]. set (s1 := fold_left (ap_leave_edge b) (nb b) s) in *. clearbody s1. destruct LS as [L1 L2 L3 L4 L5 _ _ _ _ _ _].
    destruct (IH s1 I') as (s' & X1 & X2 & X3 & X4); [discriminate|rewrite L1, L3; exact C|auto|congruence|]. rewrite L1 in *. exists s'. split; [auto|]. split; [auto|]. split; [|auto].
    destruct X3; constructor; congruence.
Qed.

Lemma cc_ok s v : Inv R s [] -> a_stack s = [] -> v < n -> a_vis s v = false -> (forall y, y < n -> a_vis s y = false -> v <= y) ->
  exists s', ap_cc R s v = Some s' /\ Inv R s' [] /\ a_stack s' = [] /\ V s' v /\ forall x, V s x -> V s' x.
Proof.
  intros I ES Hv Q M. unfold ap_cc. rewrite ES. set (s0 := mk_ap (a_vis s) (a_disc s) (fset (a_par s) v (Some v)) (a_low s) [v] (a_aps s) (a_step s)).
  assert (PO : forall x, V s x -> a_par s0 x = a_par s x) by (intros x Vx; apply fset_neq; intros ->; congruence).
  assert (AE : forall a x, V s x -> anc (a_par s) a x -> anc (a_par s0) a x).
  { intros a x Vx A. apply (anc_ext (a_par s) _ (fun y => V s y)); auto. intros y p Hy. apply (par_visited R s []); auto. }
  assert (I0 : Inv R s0 []).
  { constructor; unfold s0 in *; cbn [a_vis a_disc a_low a_aps a_step] in *; try apply I.
    - intros x Vx. cbn [a_par] in PO. cbn [a_par]. rewrite PO by auto. apply (i_par _ _ _ I x Vx).
    - intros x y Vx Vy H. destruct (i_edge _ _ _ I x y Vx Vy H); [left|right]; apply AE; auto.
    - intros x Vx Nx. destruct (i_fin _ _ _ I x Vx Nx) as [A B]. split; [auto|]. cbn [a_par] in *. rewrite PO by auto. intro Z. destruct (B Z) as [B1 B2 B3].
      constructor; cbn [a_vis a_disc a_par a_low]; rewrite ?PO by auto.
      + intros t Ht. rewrite PO by auto. auto.
      + intros t Ht. rewrite PO by auto. auto.
      + destruct B3 as [W|[(t & Ht & Pt & W)|(t & Ht & Pt & W)]]; [auto|right; left|right; right]; exists t; rewrite PO by auto; auto.
    - intro x. rewrite (i_aps _ _ _ I x). unfold cutter. cbn [a_par a_disc a_low] in *. split; intros (A & B & C & t & Ht & Pt & D).
      + split; [auto|]. split; [auto|]. assert (V s t) by (apply (i_fin _ _ _ I x A B); auto). rewrite PO by auto. split; [auto|]. exists t. rewrite PO by auto. auto.
      + split; [auto|]. split; [auto|]. assert (V s t) by (apply (i_fin _ _ _ I x A B); auto). rewrite PO in C, Pt by auto. split; [auto|]. exists t. auto.
    - intros x Vx. destruct (i_root _ _ _ I x Vx) as (r & A & Er & L). exists r. split; [apply AE; auto|]. split; [|auto]. rewrite PO; [auto|].
      clear - A Vx I NR. induction A as [|x p E N A IH]; [auto|]. apply IH. apply (par_visited R s [] x p); auto.
    - intros x []. }
  unfold ap_fuel. cbn [Nat.add]. assert (Q0 : a_vis s0 v = false) by exact Q.
  change (ap_loop (S (S (N.to_nat (bsum (length R) (fun v => N.of_nat (length (nb v))))))) R s0 []) with
    (ap_loop (S (N.to_nat (bsum (length R) (fun v => N.of_nat (length (nb v)))))) R
       (ap_enter R (mk_ap (a_vis s) (a_disc s) (a_par s0) (a_low s) [] (a_aps s) (a_step s)) v) [v]) || idtac.
  set (F := S (N.to_nat (bsum (length R) (fun v => N.of_nat (length (nb v)))))). cbn [ap_loop]. change (a_stack s0) with [v]. cbv iota. cbn [a_vis a_disc a_par a_low a_aps a_step].
  change (a_vis s0 v) with (a_vis s v). rewrite Q. cbn [ap_backtrack]. set (s1 := mk_ap (a_vis s0) (a_disc s0) (a_par s0) (a_low s0) [] (a_aps s0) (a_step s0)).
  assert (I1 : Inv R s1 []).
  { destruct I0. constructor; auto. intros x Vx Nx. destruct (i_fin x Vx Nx) as [X Y]. split; [auto|]. intro Z. destruct (Y Z). constructor; auto. }
  destruct (enter_ok R NR NS s1 [] v I1 Q Hv) as (I2 & sg & C1 & C2 & C3 & C4 & C5 & C6); [right; split; [auto|]; split; [apply fset_eq|auto]|].
  change (a_stack s1) with (@nil nat) in C1. rewrite app_nil_r in C1.
  assert (SV : SI (a_vis (ap_enter R s1 v)) (a_par (ap_enter R s1 v)) [] [v] (a_stack (ap_enter R s1 v))).
  { rewrite C1, C4. exists sg, []. split; [rewrite app_nil_r; auto|]. split; [|split; [|reflexivity]].
    - intros t Ht. unfold fset. destruct (Nat.eqb_spec t v); [auto|]. destruct (a_vis s1 t) eqn:E; [auto|]. right. apply C3. auto.
    - intros t Ht. split; [apply C3 in Ht; tauto|auto]. }
  assert (PF : (Phi (ap_enter R s1 v) < N.of_nat F)%N).
  { assert (A : (Phi (ap_enter R s1 v) <= Phi s1)%N) by (apply (phi_enter s1 _ v); auto; rewrite C1; change (a_stack s1) with (@nil nat); cbn; lia).
    assert (B : (Phi s1 <= bsum n (fun v => N.of_nat (length (nb v))))%N).
    { unfold Phi. change (a_stack s1) with (@nil nat). cbn [length]. rewrite N.add_0_l. apply bsum_le. intros x Hx. destruct (a_vis s1 x); lia. }
    unfold F, n in *. lia. }
  destruct (loop_ok F (ap_enter R s1 v) [v]) as (s2 & path & X1 & (X2 & X2' & X2'') & X3 & X4 & X5); [split; [auto|]; split; [discriminate|auto]|auto|].
  fold s1. rewrite X1. rewrite X3 in X2''.
  assert (Er : a_par s2 v = Some v).
  { destruct path as [|h l]; [congruence|]. destruct (chain_root _ l h (i_chain _ _ _ X2)) as (r & _ & Er & Lr). rewrite X4 in Lr. cbn in Lr. congruence. }
  destruct (backtrack_end v path s2 X2 X2' X2'' X4 Er) as (s3 & Y1 & Y2 & [Y3 Y4 Y5 Y6] & Y7). rewrite Y1. cbn [fst]. exists s3. split; [auto|]. split; [|split; [congruence|]].
  - assert (VF : forall x, V s3 x -> (forall t, In t (nb x) -> V s3 t) /\ (a_par s3 x <> Some x -> LS R s3 x)).
    { intros x Vx. destruct (Nat.eq_dec x v) as [->|Nx].
      - split; [intros t Ht; rewrite Y3; auto|]. intro Z. congruence.
      - apply (i_fin _ _ _ Y2 x Vx). intros [E|[]]. congruence. }
    destruct Y2. constructor; auto.
    + intros x [].
    + exact Logic.I.
    + intro x. rewrite i_aps. unfold cutter. split; intros (A & B & C & D); (split; [auto|]); (split; [|auto]).
      * intros [].
      * intros [<-|[]]. congruence.
    + intros x [].
  - split.
    + rewrite Y3. apply X5. rewrite C4. apply fset_eq.
    + intros x Vx. rewrite Y3. apply X5. rewrite C4. unfold fset. destruct (x =? v); auto.
Qed.

Lemma all_ok : forall k v s, v + k = n -> Inv R s [] -> a_stack s = [] -> (forall y, y < v -> V s y) ->
  exists s', ap_all R (seq v k) s = Some s' /\ Inv R s' [] /\ forall y, y < n -> V s' y.
Proof.
  induction k as [|k IH]; intros v s E I ES H; cbn [seq ap_all].
  - exists s. split; [auto|]. split; [auto|]. intros y Hy. apply H. lia.
  - destruct (a_vis s v) eqn:Q.
    + apply IH; auto; [lia|]. intros y Hy. destruct (Nat.eq_dec y v) as [->|]; [auto|apply H; lia].
    + destruct (cc_ok s v I ES ltac:(lia) Q) as (s' & -> & I' & ES' & Vv & Vm).
      * intros y Hy Ny. destruct (Nat.le_gt_cases v y) as [L|L]; [auto|]. rewrite (H y L) in Ny. discriminate Ny.
      * apply IH; auto; [lia|]. intros y Hy. destruct (Nat.eq_dec y v) as [->|]; [auto|]. apply Vm, H. lia.
Qed.

Theorem find_all_ok : exists s, find_all_aps R = Some s /\ Inv R s [] /\ forall y, y < n -> V s y.
Proof.
  unfold find_all_aps. apply (all_ok n 0 ap_init); auto; [|intros y Hy; lia].
  constructor; cbn; try discriminate; try (intros ? []).
  - symmetry. apply bsum_zero. auto.
  - exact Logic.I.
  - intro x. split; [intros []|intros [X _]; discriminate X].
Qed.
End DFS.
