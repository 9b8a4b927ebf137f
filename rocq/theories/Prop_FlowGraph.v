(* Prop_FlowGraph.v - C88: the residual graph. *)
From Verif Require Import SpecCut M_FlowGraph P_Cut.

Definition zsuml (l : list Z) : Z := fold_right Z.add 0%Z l.
Lemma zsuml_app a b : zsuml (a ++ b) = (zsuml a + zsuml b)%Z.
Proof. unfold zsuml. induction a; cbn [fold_right app]; lia. Qed.
(** what was asked for: the capacities of the new_edge calls from u to v, and from u *)
Definition asked (os : list fop) (u v : nat) : Z := zsuml (map (fun o => match o with FNew a b c => if (a =? u) && (b =? v) then c else 0%Z | _ => 0%Z end) os).
Definition asked_from (os : list fop) (u : nat) : Z := zsuml (map (fun o => match o with FNew a b c => if a =? u then c else 0%Z | _ => 0%Z end) os).
Definition news (os : list fop) : nat := length (filter (fun o => match o with FNew _ _ _ => true | _ => false end) os).
(** the capacity of g from u to v *)
Definition cap_to (g : fgraph) (u v : nat) : Z := zsuml (map (fun r => if r_tgt r =? v then r_cap r else 0%Z) (nth u (fg_adj g) [])).
(** reverse edges pair up the edges: the reverse of (u, e) leads from the target back to u, and its reverse is e *)
Definition paired (g : fgraph) : Prop := forall u e r, fg_edge g u e = Some r ->
  r_src r = u /\ r_tgt r <> u /\ exists r', fg_edge g (r_tgt r) (r_rev r) = Some r' /\ r_tgt r' = u /\ r_rev r' = e.
(** calls as they should be: vertices exist, no loops; only existing edges are set *)
Fixpoint calls_ok (g : fgraph) (os : list fop) : Prop :=
  match os with
  | [] => True
  | FNew u v c :: os' => u < length (fg_adj g) /\ v < length (fg_adj g) /\ u <> v /\ forall g', fg_new g u v c = Some g' -> calls_ok g' os'
  | FSet u e f :: os' => fg_edge g u e <> None /\ forall g', fg_set g u e f = Some g' -> calls_ok g' os'
  end.

Record fgi (n : nat) (done : list fop) (g : fgraph) : Prop := {
  f_len : length (fg_adj g) = n;
  f_cl : length (fg_cap g) = n;
  f_pair : paired g;
  f_to : forall u v, u < n -> cap_to g u v = asked done u v;
  f_from : forall u, u < n -> nth u (fg_cap g) 0%Z = asked_from done u;
  f_m : fg_m g = 2 * news done;
  f_sz : list_sum (map (@length redg) (fg_adj g)) = fg_m g }.

Lemma edge_nth g u e : fg_edge g u e = nth_error (nth u (fg_adj g) []) e.
Proof.
  unfold fg_edge. destruct (nth_error (fg_adj g) u) as [es|] eqn:E; [rewrite (nth_error_nth _ _ [] E); reflexivity|].
  apply nth_error_None in E. rewrite nth_overflow by auto. destruct e; reflexivity.
Qed.
Lemma nth_error_snocs {A} (l : list A) x c y : nth_error (l ++ [x]) c = Some y -> nth_error l c = Some y \/ (c = length l /\ y = x).
Proof.
  destruct (Nat.lt_ge_cases c (length l)) as [L|L]; [rewrite nth_error_app1 by auto; auto|]. rewrite nth_error_app2 by auto. intro H.
  destruct (c - length l) as [|m] eqn:E; cbn [nth_error] in H; [injection H as <-; right; split; [lia|auto]|]. destruct m; discriminate H.
Qed.
Lemma list_sum_upd l i x : i < length l -> list_sum (upd l i x) + nth i l 0 = list_sum l + x.
Proof. revert i. induction l as [|a l IH]; intros [|i] H; cbn [length] in H; [lia|lia| |]; cbn [upd list_sum fold_right nth]; unfold list_sum in *; [lia|]. specialize (IH i ltac:(lia)). lia. Qed.
Lemma map_upd {A B} (f : A -> B) l i x : map f (upd l i x) = upd (map f l) i (f x).
Proof. revert i. induction l as [|a l IH]; intros [|i]; cbn [upd map]; auto. f_equal. apply IH. Qed.

Lemma fg_new_ok n done g u v c : fgi n done g -> u < n -> v < n -> u <> v -> exists g', fg_new g u v c = Some g' /\ fgi n (done ++ [FNew u v c]) g'.
Proof.
  intros [L C P T F M Z] Hu Hv Ne. unfold fg_new. rewrite L. destruct (Nat.ltb_spec u n); [|lia]. destruct (Nat.ltb_spec v n); [|lia]. cbn [andb]. cbv zeta.
  rewrite (nth_upd_neq _ u _ v) by auto. rewrite (nth_upd_eq _ u) by lia. rewrite app_length. cbn [length]. rewrite Nat.add_sub.
  set (au := nth u (fg_adj g) []) in *. set (av := nth v (fg_adj g) []) in *.
  set (x := mk_redg u v c 0 (length av)). set (y := mk_redg v u 0 0 (length au)).
  eexists. split; [reflexivity|]. set (g' := mk_fg _ _ _).
  assert (Au : nth u (fg_adj g') [] = au ++ [x]) by (unfold g'; cbn [fg_adj]; rewrite nth_upd_neq by auto; apply nth_upd_eq; lia).
  assert (Av : nth v (fg_adj g') [] = av ++ [y]) by (unfold g'; cbn [fg_adj]; apply nth_upd_eq; rewrite upd_length; lia).
  assert (Ao : forall a, a <> u -> a <> v -> nth a (fg_adj g') [] = nth a (fg_adj g) []) by (intros a N1 N2; unfold g'; cbn [fg_adj]; rewrite !nth_upd_neq by auto; auto).
  assert (Old : forall a e r, fg_edge g a e = Some r -> fg_edge g' a e = Some r).
  { intros a e r H'. rewrite edge_nth in *. assert (e < length (nth a (fg_adj g) [])) by (apply nth_error_Some; congruence).
    destruct (Nat.eq_dec a u) as [->|N1]; [rewrite Au, nth_error_app1; auto|]. destruct (Nat.eq_dec a v) as [->|N2]; [rewrite Av, nth_error_app1; auto|]. rewrite Ao; auto. }
  assert (X : fg_edge g' u (length au) = Some x) by (rewrite edge_nth, Au, nth_error_app2, Nat.sub_diag by lia; reflexivity).
  assert (Y : fg_edge g' v (length av) = Some y) by (rewrite edge_nth, Av, nth_error_app2, Nat.sub_diag by lia; reflexivity).
  constructor.
  - unfold g'. cbn [fg_adj]. rewrite !upd_length. auto.
  - unfold g'. cbn [fg_cap]. rewrite upd_length. auto.
  - intros a e r H'.
    assert (Q : fg_edge g a e = Some r \/ (a = u /\ e = length au /\ r = x) \/ (a = v /\ e = length av /\ r = y)).
    { rewrite edge_nth in *. destruct (Nat.eq_dec a u) as [->|N1]; [rewrite Au in H'; apply nth_error_snocs in H'; fold au; tauto|].
      destruct (Nat.eq_dec a v) as [->|N2]; [rewrite Av in H'; apply nth_error_snocs in H'; fold av; tauto|]. rewrite Ao in H' by auto. auto. }
    destruct Q as [Q|[(-> & -> & ->)|(-> & -> & ->)]].
    + destruct (P _ _ _ Q) as (P1 & P2 & r' & P3 & P4 & P5). split; [auto|]. split; [auto|]. exists r'. auto.
    + cbn [x r_src r_tgt r_rev]. split; [auto|]. split; [auto|]. exists y. auto.
    + cbn [y r_src r_tgt r_rev]. split; [auto|]. split; [auto|]. exists x. auto.
  - intros a b Ha. unfold cap_to, asked. rewrite map_app, zsuml_app. fold (asked done a b). rewrite <- T by auto. unfold cap_to. cbn [map zsuml fold_right].
    destruct (Nat.eq_dec a u) as [->|N1].
    { rewrite Au, map_app, zsuml_app, Nat.eqb_refl. cbn [map zsuml fold_right x r_tgt r_cap andb]. fold au. lia. }
    destruct (Nat.eqb_spec u a); [congruence|]. cbn [andb]. destruct (Nat.eq_dec a v) as [->|N2]; [|rewrite Ao by auto; lia].
    rewrite Av, map_app, zsuml_app. cbn [map zsuml fold_right y r_tgt r_cap]. fold av. destruct (u =? b); lia.
  - intros a Ha. unfold g'. cbn [fg_cap]. unfold asked_from. rewrite map_app, zsuml_app. fold (asked_from done a). rewrite <- F by auto. cbn [map zsuml fold_right].
    destruct (Nat.eqb_spec u a) as [<-|N1]; [rewrite nth_upd_eq by lia; lia|rewrite nth_upd_neq by auto; lia].
  - unfold g', news. cbn [fg_m]. rewrite filter_app, app_length. cbn [filter length]. fold (news done). lia.
  - unfold g'. cbn [fg_adj fg_m]. rewrite !map_upd. set (l := map (@length redg) (fg_adj g)) in *. assert (Ll : length l = n) by (unfold l; rewrite map_length; auto).
    assert (N1 : forall a, nth a l 0 = length (nth a (fg_adj g) [])) by (intro a; exact (map_nth (@length redg) (fg_adj g) [] a)).
    assert (S1 := list_sum_upd (upd l u (length (au ++ [x]))) v (length (av ++ [y])) ltac:(rewrite upd_length; lia)). assert (S2 := list_sum_upd l u (length (au ++ [x])) ltac:(lia)).
    rewrite nth_upd_neq in S1 by auto. rewrite N1 in S1, S2. fold au in S2. fold av in S1. rewrite !app_length in *. cbn [length] in *. lia.
Qed.

Lemma fg_set_ok n done g u e f : fgi n done g -> fg_edge g u e <> None -> exists g', fg_set g u e f = Some g' /\ fgi n (done ++ [FSet u e f]) g'.
Proof.
  intros [L C P T F M Z] H. unfold fg_set. destruct (fg_edge g u e) as [r|] eqn:E; [|congruence]. eexists. split; [reflexivity|]. set (r1 := mk_redg _ _ _ _ _). set (g' := mk_fg _ _ _).
  rewrite edge_nth in E. set (au := nth u (fg_adj g) []) in *. assert (Le : e < length au) by (apply nth_error_Some; congruence).
  assert (Lu : u < n). { destruct (Nat.lt_ge_cases u n); [auto|]. unfold au in Le. rewrite nth_overflow in Le by lia. cbn [length] in Le. lia. }
  assert (Au : nth u (fg_adj g') [] = upd au e r1) by (unfold g'; cbn [fg_adj]; apply nth_upd_eq; lia).
  assert (Ao : forall a, a <> u -> nth a (fg_adj g') [] = nth a (fg_adj g) []) by (intros a N1; unfold g'; cbn [fg_adj]; apply nth_upd_neq; auto).
  (* the edges are as before, up to the flow *)
  assert (NU : forall (d : redg) (l : list redg) i, nth_error (upd l e r1) i = if i =? e then (if e <? length l then Some r1 else None) else nth_error l i).
  { intros d l i. destruct (Nat.eqb_spec i e) as [->|Ni].
    - destruct (Nat.ltb_spec e (length l)); [rewrite (nth_error_nth' _ d) by (rewrite upd_length; auto); rewrite nth_upd_eq by auto; auto|apply nth_error_None; rewrite upd_length; auto].
    - destruct (Nat.lt_ge_cases i (length l)); [rewrite !(nth_error_nth' _ d) by (rewrite ?upd_length; auto); rewrite nth_upd_neq by auto; auto|].
      transitivity (@None redg); [apply nth_error_None; rewrite upd_length; auto|symmetry; apply nth_error_None; auto]. }
  assert (Same : forall a i q, fg_edge g a i = Some q -> exists q', fg_edge g' a i = Some q' /\ r_src q' = r_src q /\ r_tgt q' = r_tgt q /\ r_rev q' = r_rev q).
  { intros a i q Q. rewrite edge_nth in *. destruct (Nat.eq_dec a u) as [->|Na]; [|rewrite Ao by auto; exists q; auto]. rewrite Au, (NU r). fold au in Q. destruct (Nat.eqb_spec i e) as [->|Ni]; [|exists q; auto].
    destruct (Nat.ltb_spec e (length au)); [|lia]. exists r1. rewrite E in Q. injection Q as <-. auto. }
  assert (Back : forall a i q', fg_edge g' a i = Some q' -> exists q, fg_edge g a i = Some q /\ r_src q' = r_src q /\ r_tgt q' = r_tgt q /\ r_rev q' = r_rev q).
  { intros a i q' Q. rewrite edge_nth in *. destruct (Nat.eq_dec a u) as [->|Na]; [|rewrite Ao in Q by auto; exists q'; auto]. rewrite Au, (NU r) in Q. fold au. destruct (Nat.eqb_spec i e) as [->|Ni]; [|exists q'; auto].
    destruct (Nat.ltb_spec e (length au)); [|lia]. injection Q as <-. exists r. auto. }
  constructor.
  - unfold g'. cbn [fg_adj]. rewrite upd_length. auto.
  - auto.
  - intros a i q' Q'. destruct (Back _ _ _ Q') as (q & Q & S1 & S2 & S3). destruct (P _ _ _ Q) as (P1 & P2 & p & P3 & P4 & P5). rewrite S1, S2, S3. split; [auto|]. split; [auto|].
    destruct (Same _ _ _ P3) as (p' & Q1 & Q2 & Q3 & Q4). exists p'. rewrite Q3, Q4. auto.
  - intros a b Ha. unfold asked. rewrite map_app, zsuml_app. cbn [map zsuml fold_right]. fold (asked done a b). rewrite <- T by auto. unfold cap_to.
    destruct (Nat.eq_dec a u) as [->|Na]; [|rewrite Ao by auto; lia]. rewrite Au. fold au. set (h := fun r => if r_tgt r =? b then r_cap r else 0%Z). rewrite (map_upd h).
    replace (h r1) with (nth e (map h au) 0%Z); [rewrite upd_same; lia|]. rewrite (nth_indep _ 0%Z (h r)) by (rewrite map_length; auto). rewrite (map_nth h), (nth_error_nth _ _ r E). reflexivity.
  - intros a Ha. unfold asked_from. rewrite map_app, zsuml_app. cbn [map zsuml fold_right]. fold (asked_from done a). rewrite <- F by auto. unfold g'. cbn [fg_cap]. lia.
  - unfold news. rewrite filter_app, app_length. cbn [filter length]. fold (news done). unfold g'. cbn [fg_m]. lia.
  - unfold g'. cbn [fg_adj fg_m]. rewrite map_upd, upd_length. fold au. replace (length au) with (nth u (map (@length redg) (fg_adj g)) 0); [rewrite upd_same; auto|]. exact (map_nth (@length redg) (fg_adj g) [] u).
Qed.

Lemma fg_run_ok n : forall os done g, fgi n done g -> calls_ok g os -> exists g', fg_run g os = Some g' /\ fgi n (done ++ os) g'.
Proof.
  induction os as [|o os IH]; intros done g I H; cbn [fg_run]; [exists g; rewrite app_nil_r; auto|]. replace (done ++ o :: os) with ((done ++ [o]) ++ os) by (rewrite <- app_assoc; reflexivity).
  destruct o as [u v c|u e f]; cbn [calls_ok] in H.
  - destruct H as (A & B & C & K). rewrite (f_len _ _ _ I) in A, B. destruct (fg_new_ok n done g u v c I A B C) as (g' & E & I'). rewrite E. apply IH; auto.
  - destruct H as (A & K). destruct (fg_set_ok n done g u e f I A) as (g' & E & I'). rewrite E. apply IH; auto.
Qed.

Lemma fgi_start n : fgi n [] (fg_start n).
Proof.
  assert (R : forall u, nth u (repeat (@nil redg) n) [] = []) by (induction n as [|k IH]; intros [|u]; cbn [repeat nth]; auto).
  constructor; cbn [fg_start fg_adj fg_cap fg_m]; try apply repeat_length; auto.
  - intros u e r H. rewrite edge_nth in H. cbn [fg_start fg_adj] in H. rewrite R in H. destruct e; discriminate H.
  - intros u v _. unfold cap_to. cbn [fg_start fg_adj]. rewrite R. reflexivity.
  - intros u _. unfold asked_from. cbn [map zsuml fold_right]. clear R. revert u. induction n as [|k IH]; intros [|u]; cbn [repeat nth]; auto.
  - clear R. induction n; cbn [repeat map list_sum fold_right length]; auto.
Qed.

(** C88: after any calls, edges and reverse edges are paired, capacities are those asked for, all edges are counted *)
Theorem C88_residual_graph n os : calls_ok (fg_start n) os ->
  exists g, fg_run (fg_start n) os = Some g /\ length (fg_adj g) = n /\ paired g /\
    (forall u v, u < n -> cap_to g u v = asked os u v) /\ (forall u, u < n -> fg_capacity g u = Some (asked_from os u)) /\
    fg_m g = 2 * news os /\ list_sum (map (@length redg) (fg_adj g)) = fg_m g.
Proof.
  intro H. destruct (fg_run_ok n os [] (fg_start n) (fgi_start n) H) as (g & E & [L C P T F M Z]). exists g. cbn [app] in *. repeat (split; [solve [auto]|]). split; [|auto].
  intros u Hu. unfold fg_capacity. rewrite (nth_error_nth' _ 0%Z) by lia. f_equal. auto.
Qed.
Print Assumptions C88_residual_graph.

(** createFlowGraph: the capacity between two vertices is the weight between them *)
Lemma all_new_ok n g os : length (fg_adj g) = n -> (forall o, In o os -> exists u v c, o = FNew u v c /\ u < n /\ v < n /\ u <> v) -> calls_ok g os.
Proof.
  revert g. induction os as [|o os IH]; intros g L H; cbn [calls_ok]; [auto|]. destruct (H o (or_introl eq_refl)) as (u & v & c & -> & A & B & C). rewrite L. repeat (split; [auto|]).
  intros g' E. apply IH; [|intros; apply H; right; auto]. unfold fg_new in E. destruct (_ && _); [|discriminate E]. injection E as <-. cbn [fg_adj]. rewrite !upd_length. auto.
Qed.
Lemma zsuml_zero {A} (f : A -> Z) l : (forall x, In x l -> f x = 0%Z) -> zsuml (map f l) = 0%Z.
Proof. induction l as [|a l IH]; intro H; [auto|]. cbn [map zsuml fold_right]. rewrite (H a) by (left; auto). unfold zsuml in IH. rewrite IH by (intros; apply H; right; auto). auto. Qed.

Theorem C88_create_flow_graph G : undirected G ->
  exists g, create_flow_graph G = Some g /\ length (fg_adj g) = length G /\ paired g /\ (forall u v, u < length G -> cap_to g u v = Z.of_N (wt G u v)) /\
    (forall u, u < length G -> fg_capacity g u = Some (Z.of_N (sumN snd (nth u G [])))) /\ fg_m g = 2 * list_sum (map (@length (nat * N)) G).
Proof.
  intros [U1 U2]. unfold create_flow_graph. set (blk := fun u => map (fun e => FNew u (fst e) (Z.of_N (snd e))) (nth u G [])).
  assert (H : calls_ok (fg_start (length G)) (flat_map blk (seq 0 (length G)))).
  { apply (all_new_ok (length G)); [apply repeat_length|]. intros o I. apply in_flat_map in I. destruct I as (u & Iu & I). apply in_seq in Iu. apply in_map_iff in I. destruct I as ([v w] & <- & I). destruct (U1 _ _ _ I). exists u, v, (Z.of_N w). cbn [fst snd]. repeat (split; [solve [auto; lia]|]). auto. }
  destruct (C88_residual_graph _ _ H) as (g & E & L & P & T & F & M & _). exists g. split; [auto|]. split; [auto|]. split; [auto|].
  assert (FM : forall (f : fop -> Z) l, zsuml (map f (flat_map blk l)) = zsuml (map (fun u => zsuml (map f (blk u))) l)).
  { intros f l. induction l as [|a l IH]; [auto|]. cbn [flat_map map]. rewrite map_app, zsuml_app, IH. reflexivity. }
  assert (One : forall (h : nat -> Z) u k, u < k -> (forall a, a <> u -> h a = 0%Z) -> zsuml (map h (seq 0 k)) = h u).
  { intros h u k Hu H0. replace k with (u + S (k - S u)) by lia. rewrite seq_app, map_app, zsuml_app. cbn [seq map zsuml fold_right Nat.add].
    rewrite (zsuml_zero h (seq 0 u)) by (intros x I; apply in_seq in I; apply H0; lia). fold (zsuml (map h (seq (S u) (k - S u)))). rewrite (zsuml_zero h (seq (S u) _)) by (intros x I; apply in_seq in I; apply H0; lia). lia. }
  split; [|split].
  - intros u v Hu. rewrite T by auto. unfold asked. rewrite FM. rewrite (One _ u); [|exact Hu|intros a Na; unfold blk; rewrite map_map; apply zsuml_zero; intros x _; rewrite (proj2 (Nat.eqb_neq a u) Na); reflexivity].
    unfold blk, wt. rewrite map_map. induction (nth u G []) as [|[t w] es IH]; [reflexivity|]. cbn [map zsuml fold_right filter fst snd]. rewrite Nat.eqb_refl. cbn [andb]. unfold zsuml in IH. cbn [fst snd] in IH. rewrite Nat.eqb_refl in IH. cbn [andb] in IH. rewrite IH. destruct (t =? v); cbn [sumN snd]; lia.
  - intros u Hu. rewrite F by auto. f_equal. unfold asked_from. rewrite FM. rewrite (One _ u); [|exact Hu|intros a Na; unfold blk; rewrite map_map; apply zsuml_zero; intros x _; rewrite (proj2 (Nat.eqb_neq a u) Na); reflexivity].
    unfold blk. rewrite map_map. induction (nth u G []) as [|[t w] es IH]; [reflexivity|]. cbn [map zsuml fold_right sumN fst snd]. rewrite Nat.eqb_refl. unfold zsuml in IH. rewrite Nat.eqb_refl in IH. rewrite IH. lia.
  - rewrite M. f_equal. unfold news. clear. assert (Q : forall l, length (filter (fun o => match o with FNew _ _ _ => true | _ => false end) (flat_map blk l)) = list_sum (map (fun u => length (nth u G [])) l)).
    { induction l as [|a l IH]; [auto|]. cbn [flat_map map]. rewrite filter_app, app_length, IH. cbn [list_sum fold_right]. f_equal. unfold blk. induction (nth a G []) as [|e es IH']; [auto|]. cbn [map filter length]. rewrite IH'. auto. }
    rewrite Q. f_equal. clear. induction G as [|x G IH] using rev_ind; [auto|]. rewrite app_length, Nat.add_1_r, seq_S, !map_app. cbn [map Nat.add]. f_equal.
    + rewrite <- IH. apply map_ext_in. intros a I. apply in_seq in I. rewrite app_nth1 by lia. reflexivity.
    + rewrite app_nth2, Nat.sub_diag by lia. reflexivity.
Qed.
Print Assumptions C88_create_flow_graph.

Definition fgx : graph := gr [[(1, 3); (2, 1)]; [(0, 3); (2, 2)]; [(0, 1); (1, 2)]].
Example C88_ex : undirected fgx /\ calls_ok (fg_start 2) [FNew 0 1 3; FNew 1 0 4; FSet 0 1 2] /\
  option_map (fun g => (map (map (fun r => (r_tgt r, r_rev r))) (fg_adj g), fg_m g)) (create_flow_graph fgx) =
    Some ([[(1, 0); (2, 0); (1, 1); (2, 2)]; [(0, 0); (0, 2); (2, 1); (2, 3)]; [(0, 1); (1, 2); (0, 3); (1, 3)]], 12).
Proof.
  split; [apply undirectedb_ok; vm_compute; reflexivity|]. split; [|vm_compute; reflexivity].
  cbn [calls_ok]. split; [cbn; lia|]. split; [cbn; lia|]. split; [lia|]. intros g' E. vm_compute in E. injection E as <-. split; [cbn; lia|]. split; [cbn; lia|]. split; [lia|]. intros g' E. vm_compute in E. injection E as <-.
  split; [vm_compute; intro X; discriminate X|auto].
Qed.

(** loops: the edge 0 -> 0 is its own reverse edge, so flow sent along it is taken back at once *)
Theorem C88_loop_refuted : ~ (forall n u v c, u < n -> v < n -> exists g, fg_new (fg_start n) u v c = Some g /\ forall r, fg_edge g u 0 = Some r -> (r_tgt r, r_rev r) <> (u, 0)).
Proof. intro F. destruct (F 1 0 0 1%Z ltac:(lia) ltac:(lia)) as (g & E & Q). vm_compute in E. injection E as <-. apply (Q _ eq_refl). reflexivity. Qed.
Print Assumptions C88_loop_refuted.
