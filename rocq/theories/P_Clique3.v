(* P_Clique3.v - proofs about M_Clique: findCliques.  The weights only decide where the search is cut off; what is found
   are maximal cliques, each once, and no list is read out of range. *)
From Coq Require Import Permutation Sorted.
From Verif Require Import SpecRel P_UnionFind P_Cut P_Mutable P_MutableIO P_Multi P_Kernel P_Merge P_LocalSearch P_Clique P_Clique2.

Notation keys l := (map (@fst nat N) l).
Definition up (l : list (nat * N)) : Prop := StronglySorted lt (keys l).

Lemma up_inv a l : up (a :: l) -> up l /\ forall k, In k (keys l) -> fst a < k.
Proof. intro H. inversion H as [|? ? S F]; subst. rewrite Forall_forall in F. auto. Qed.
Lemma filter_false {A} (f : A -> bool) l : (forall x, In x l -> f x = false) -> filter f l = [].
Proof. induction l as [|a l IH]; intro H; [reflexivity|]. cbn. rewrite (H a) by (left; auto). apply IH. intros; apply H; right; auto. Qed.
Lemma filter_same {A} (f g : A -> bool) l : (forall x, In x l -> f x = g x) -> filter f l = filter g l.
Proof. induction l as [|a l IH]; intro H; [reflexivity|]. cbn. rewrite (H a) by (left; auto). rewrite IH by (intros; apply H; right; auto). reflexivity. Qed.
Lemma inb_false l x : ~ In x l -> inb l x = false.
Proof. intro H. destruct (inb l x) eqn:E; [|auto]. apply inb_In in E. contradiction. Qed.
Lemma inb_cons_gt a l x : a < x -> inb (a :: l) x = inb l x.
Proof. intro H. unfold inb. cbn [existsb]. destruct (Nat.eqb_spec x a) as [|]; [lia|]. reflexivity. Qed.

(** ** neighborhoodIntersection *)
(* one place of P or X against the place n of Nb *)
Lemma take_ok n prev l acc wn Nb' : up l -> up ((n, wn) :: Nb') -> (prev = None -> ~ (exists w l', l = (n, w) :: l')) ->
  exists l1 acc1, ni_take n prev l acc = Some (l1, acc1) /\ up l1 /\ length l1 <= length l /\ (gt_u n (at_head l) = true -> length l1 < length l) /\
    incl (keys l1) (keys l) /\
    (forall Nb, Nb = (n, wn) :: Nb' \/ (Nb = Nb' /\ le_u n (at_head l) = true) -> keys acc1 ++ filter (inb (keys Nb)) (keys l1) = keys acc ++ filter (inb (n :: keys Nb')) (keys l)).
Proof.
  intros U UN HP. unfold ni_take. destruct l as [|[a w] l'].
  - exists [], acc. repeat split; auto; try (intros; discriminate); try (intros ? []).
  - destruct (up_inv _ _ U) as [U' L]. destruct (up_inv _ _ UN) as [UN' LN]. cbn [fst] in *. cbn [at_head].
    assert (Gt : forall k, In k (keys l') -> a < k) by auto.
    destruct (Nat.eqb_spec n a) as [->|Na].
    + destruct prev as [wp|]; [|exfalso; apply (HP eq_refl); eauto]. exists l', (acc ++ [(a, ((wp + w) mod 2 ^ 64)%N)]).
      split; [reflexivity|]. split; [auto|]. split; [cbn; lia|]. split; [cbn; lia|]. split; [intros k I; right; auto|].
      intros Nb HN. rewrite map_app, <- app_assoc. cbn [map fst app]. f_equal. cbn [filter].
      assert (E : inb (a :: keys Nb') a = true) by (apply inb_In; left; auto). rewrite E. f_equal. apply filter_same. intros k I. specialize (Gt k I).
      destruct HN as [->|[-> _]]; cbn [map fst]; [reflexivity|]. symmetry. apply inb_cons_gt. auto.
    + destruct (Nat.ltb_spec a n) as [Lt|Ge].
      * exists l', acc. split; [reflexivity|]. split; [auto|]. split; [cbn; lia|]. split; [cbn; lia|]. split; [intros k I; right; auto|].
        intros Nb HN. f_equal. cbn [map fst filter]. rewrite (inb_false (n :: keys Nb') a). 2:{ intros [->|I]; [lia|]. specialize (LN a I). lia. }
        destruct HN as [->|[-> Q]]; [reflexivity|]. cbn [le_u] in Q. apply Nat.leb_le in Q. lia.
      * exists ((a, w) :: l'), acc. split; [reflexivity|]. split; [auto|]. split; [auto|]. split; [cbn [gt_u]; intro Q; apply Nat.ltb_lt in Q; lia|]. split; [apply incl_refl|].
        intros Nb HN. f_equal. apply filter_same. intros k I. destruct HN as [->|[-> _]]; [reflexivity|]. symmetry. apply inb_cons_gt. cbn [map fst] in I. destruct I as [<-|I]; [lia|]. specialize (Gt k I). lia.
Qed.

Lemma gt_iff n p : gt_u n p = negb (le_u n p).
Proof. destruct p; [|reflexivity]. cbn [gt_u le_u]. apply Nat.ltb_antisym. Qed.
Lemma lt_le n p : lt_u n p = true -> le_u n p = true.
Proof. destruct p; [|auto]. cbn [lt_u le_u]. rewrite Nat.ltb_lt, Nat.leb_le. lia. Qed.
Lemma head_gt n l : up l -> lt_u n (at_head l) = true -> forall k, In k (keys l) -> n < k.
Proof. destruct l as [|[a w] l]; intros U H k I; [destruct I|]. cbn [at_head lt_u] in H. apply Nat.ltb_lt in H. destruct I as [<-|I]; [auto|]. destruct (up_inv _ _ U) as [_ L]. specialize (L k I). cbn in L. lia. Qed.

Lemma ni_loop_ok : forall fuel prev Nb P R X ip ix ext light, length Nb + length P + length X <= fuel -> up Nb -> up P -> up X ->
  (prev = None -> forall n k, In n (keys (firstn 1 Nb)) -> In k (keys P) -> n < k) ->
  exists ip' ix' e' l', ni_loop fuel prev Nb P R X ip ix ext light = Some (ip', ix', e', l') /\
    keys ip' = keys ip ++ filter (inb (keys Nb)) (keys P) /\ keys ix' = keys ix ++ filter (inb (keys Nb)) (keys X).
Proof.
  induction fuel as [|fuel IH]; intros prev Nb P R X ip ix ext light L UN UP UX HP.
  - destruct Nb; [|cbn in L; lia]. exists ip, ix, ext, light. split; [reflexivity|]. rewrite !filter_false by (intros; reflexivity). rewrite !app_nil_r. auto.
  - destruct Nb as [|[n wn] Nb']; [exists ip, ix, ext, light; split; [reflexivity|]; rewrite !filter_false by (intros; reflexivity); rewrite !app_nil_r; auto|].
    cbn [ni_loop]. destruct (up_inv _ _ UN) as [UN' LN]. cbn [fst] in LN. destruct (lt_u n (at_head P) && lt_u n (at_head X)) eqn:B.
    + apply andb_true_iff in B as [B1 B2]. rewrite (lt_le _ _ B1), (lt_le _ _ B2). cbn [andb].
      match goal with |- context [ni_loop fuel ?pr Nb' P ?R1 X ip ix ?e light] => destruct (IH pr Nb' P R1 X ip ix e light) as (ip' & ix' & e' & l' & E & A1 & A2) end; auto; [cbn in L; lia|intro Q; discriminate Q|].
      exists ip', ix', e', l'. split; [exact E|]. rewrite A1, A2. cbn [map fst]. split; f_equal; apply filter_same; intros k I; symmetry; apply inb_cons_gt; eapply head_gt; [| | exact I| | |exact I]; eauto.
    + set (adv := le_u n (at_head P) && le_u n (at_head X)). set (prev1 := if adv then Some wn else prev). set (N1 := if adv then Nb' else (n, wn) :: Nb').
      assert (Pv : prev1 = None -> forall k, In k (keys P) -> n < k). { unfold prev1. destruct adv; [intro Q; discriminate Q|]. intros Q k I. apply (HP Q n k); [left; auto|auto]. }
      assert (HX : prev1 = None -> ~ exists w l', X = (n, w) :: l').
      { intros Q (w & l' & E). assert (V : adv = false) by (unfold prev1 in Q; destruct adv; [discriminate Q|auto]). unfold adv in V. rewrite E in V. cbn [at_head le_u] in V. rewrite Nat.leb_refl, andb_true_r in V.
        destruct P as [|[p w'] P']; [discriminate V|]. cbn [at_head le_u] in V. apply Nat.leb_gt in V. specialize (Pv Q p (or_introl eq_refl)). lia. }
      assert (HQ : prev1 = None -> ~ exists w l', P = (n, w) :: l'). { intros Q (w & l' & E). rewrite E in Pv. specialize (Pv Q n (or_introl eq_refl)). lia. }
      destruct (take_ok n prev1 X ix wn Nb' UX UN HX) as (X1 & ix1 & -> & UX1 & LX & GX & IX & FX). destruct (take_ok n prev1 P ip wn Nb' UP UN HQ) as (P1 & ip1 & -> & UP1 & LP & GP & IP & FP).
      assert (HN : forall q, adv = true -> le_u n (at_head q) = true -> N1 = (n, wn) :: Nb' \/ (N1 = Nb' /\ le_u n (at_head q) = true)) by (intros q V ?; right; split; [unfold N1; rewrite V; auto|auto]).
      match goal with |- context [ni_loop fuel prev1 N1 P1 R X1 ip1 ix1 ext ?li] => destruct (IH prev1 N1 P1 R X1 ip1 ix1 ext li) as (ip' & ix' & e' & l' & E & A1 & A2) end; auto.
      * destruct adv eqn:V; unfold N1; [cbn in L; lia|]. unfold adv in V. apply andb_false_iff in V. rewrite !gt_iff in *. cbn [length] in *. destruct V as [V|V]; rewrite V in *; cbn [negb] in *; [specialize (GP eq_refl)|specialize (GX eq_refl)]; lia.
      * unfold N1. destruct adv; auto.
      * intros Q m k Im Ik. unfold N1 in Im. unfold prev1 in Q. destruct adv eqn:V; [discriminate Q|]. cbn in Im. destruct Im as [<-|[]]. apply Pv; [unfold prev1; exact Q|auto].
      * exists ip', ix', e', l'. split; [exact E|]. rewrite A1, A2. cbn [map fst]. split; [apply FP|apply FX]; (destruct adv eqn:V; [right|left; unfold N1; auto]; unfold N1; split; [auto|]; unfold adv in V; apply andb_true_iff in V; tauto).
Qed.

Lemma ni_ok Nb P R X ext light r : up Nb -> up P -> up X -> In r (keys Nb) -> (forall k, In k (keys P) -> r < k) ->
  exists P1 X1 e l, ni Nb P R X ext light = Some (P1, X1, e, l) /\ keys P1 = filter (inb (keys Nb)) (keys P) /\ keys X1 = filter (inb (keys Nb)) (keys X).
Proof.
  intros UN UP UX Ir HP. unfold ni. destruct (ni_loop_ok (length Nb + length P + length X) None Nb P R X [] [] ext light) as (a & b & c & d & E & A & B); auto.
  - intros _ n k In1 Ik. destruct Nb as [|[m w] Nb]; [destruct In1|]. cbn in In1. destruct In1 as [<-|[]]. specialize (HP k Ik). destruct Ir as [<-|Ir]; [cbn in HP; auto|]. destruct (up_inv _ _ UN) as [_ L]. specialize (L r Ir). cbn in L. lia.
  - exists a, b, c, d. auto.
Qed.

(** ** the search *)
Lemma diff_sub : forall fuel Nb P k, In k (keys (bk_diff fuel Nb P)) -> In k (keys P).
Proof.
  induction fuel as [|fuel IH]; intros Nb P k H; [destruct H|]. cbn [bk_diff] in H. destruct P as [|p P']; [destruct H|]. destruct Nb as [|a Nb'].
  - destruct H as [<-|H]; [left; auto|right; eapply IH; eauto].
  - destruct (fst p <? fst a); [destruct H as [<-|H]; [left; auto|right; eapply IH; eauto]|]. destruct (fst a <? fst p); [eapply IH; eauto|right; eapply IH; eauto].
Qed.
Lemma diff_nodup : forall fuel Nb P, NoDup (keys P) -> NoDup (keys (bk_diff fuel Nb P)).
Proof.
  induction fuel as [|fuel IH]; intros Nb P H; [constructor|]. cbn [bk_diff]. destruct P as [|p P']; [constructor|]. cbn [map] in H. inversion H as [|? ? A B]; subst. destruct Nb as [|a Nb'].
  - cbn [map]. constructor; [intro I; apply A; eapply diff_sub; eauto|auto].
  - destruct (fst p <? fst a); [cbn [map]; constructor; [intro I; apply A; eapply diff_sub; eauto|auto]|]. destruct (fst a <? fst p); auto.
Qed.
Lemma up_nodup l : up l -> NoDup (keys l).
Proof. induction l as [|a l IH]; intro U; [constructor|]. destruct (up_inv _ _ U) as [U' L]. cbn [map]. constructor; [intro I; specialize (L _ I); lia|auto]. Qed.
Lemma up_cons a l : up l -> (forall k, In k (keys l) -> fst a < k) -> up (a :: l).
Proof. intros U L. constructor; [exact U|]. apply Forall_forall. exact L. Qed.
Lemma up_filter l (f : nat -> bool) m : up m -> keys l = filter f (keys m) -> up l.
Proof.
  unfold up. intros U ->. induction (keys m) as [|a t IH]; [constructor|]. inversion U as [|? ? S F]; subst. cbn. destruct (f a); [|auto]. constructor; [auto|]. rewrite Forall_forall in *. intros x I. apply filter_In in I as [I _]. auto.
Qed.
Lemma erase_keys n : forall P, NoDup (keys P) -> forall k, In k (keys (bk_erase n P)) <-> In k (keys P) /\ k <> n.
Proof.
  induction P as [|p P IH]; intros ND k; [cbn; tauto|]. cbn [map] in ND. inversion ND as [|? ? A B]; subst. cbn [bk_erase]. destruct (Nat.eqb_spec (fst p) n) as [<-|Q]; cbn [map].
  - split; [intro I; split; [right; auto|intros ->; contradiction]|intros [[<-|I] N]; [congruence|auto]].
  - split; [intros [<-|I]; [split; [left; auto|auto]|apply IH in I; [split; [right|]; tauto|auto]]|intros [[<-|I] N]; [left; auto|right; apply IH; auto]].
Qed.
Lemma erase_up n P : up P -> up (bk_erase n P).
Proof.
  induction P as [|p P IH]; intro U; [exact U|]. destruct (up_inv _ _ U) as [U' L]. cbn [bk_erase]. destruct (fst p =? n); [exact U'|]. apply up_cons; [auto|]. intros k I. apply erase_keys in I as [I _]; [auto|apply up_nodup; auto].
Qed.
Lemma erase_len n P : length (bk_erase n P) <= length P.
Proof. induction P as [|p P IH]; [auto|]. cbn [bk_erase]. destruct (fst p =? n); cbn [length]; lia. Qed.
Lemma insert_keys n X k : In k (keys (bk_insert n X)) <-> In k (keys X) \/ k = n.
Proof.
  induction X as [|x X IH]; [cbn; intuition|]. cbn [bk_insert]. destruct (fst x <? n); [cbn [map In]; rewrite IH; tauto|]. destruct (Nat.eqb_spec (fst x) n) as [<-|]; cbn [map In fst]; intuition.
Qed.
Lemma insert_up n X : up X -> up (bk_insert n X).
Proof.
  induction X as [|x X IH]; intro U; [apply up_cons; [exact U|intros ? []]|]. destruct (up_inv _ _ U) as [U' L]. cbn [bk_insert]. destruct (Nat.ltb_spec (fst x) n).
  - apply up_cons; [auto|]. intros k I. apply insert_keys in I as [I| ->]; auto.
  - destruct (Nat.eqb_spec (fst x) n); [exact U|]. apply up_cons; [exact U|]. intros k [<-|I]; cbn [fst]; [lia|]. specialize (L k I). lia.
Qed.

Section Search.
Context (G : mg) (V : valid_rows (m_rows G)) (NP : no_parallel (m_rows G)).
Context (srt : list (nat * N) -> list (nat * N)) (SP : forall l, Permutation (srt l) l) (SS : forall l, StronglySorted le (keys (srt l))).
Let n := m_n G.
Definition nb (x y : nat) : Prop := exists w r, In (y, w, r) (nth x (m_rows G) []).
Lemma nb_half x y : nb x y -> x < n /\ y < n /\ x <> y /\ nb y x.
Proof.
  intros (w & r & I). apply In_nth_error in I as [e He]. destruct (V x e y w r He) as (A & B & C).
  assert (x < n). { destruct (Nat.lt_ge_cases x n) as [|Q]; [auto|]. unfold n, m_n in Q. rewrite (nth_overflow _ _ Q) in He. destruct e; discriminate He. }
  split; [auto|]. split; [exact A|]. split; [auto|]. exists w, e. apply (nth_error_In _ _ C).
Qed.
Lemma row_keys x y : In y (map (fun h : half => fst (fst h)) (nth x (m_rows G) [])) <-> nb x y.
Proof. rewrite in_map_iff. split; [intros ([[t w] r] & <- & I); exists w, r; auto|intros (w & r & I); exists (y, w, r); auto]. Qed.
Lemma strict_of (l : list nat) : StronglySorted le l -> NoDup l -> StronglySorted lt l.
Proof.
  induction 1 as [|a l S IH F]; intro ND; [constructor|]. inversion ND; subst. constructor; [auto|]. rewrite Forall_forall in *. intros x I. specialize (F x I). assert (a <> x) by (intros ->; contradiction). lia.
Qed.
Lemma srt_up l : NoDup (keys l) -> up (srt l).
Proof. intro ND. apply strict_of; [apply SS|]. apply (Permutation_NoDup (l := keys l)); [apply Permutation_map; symmetry; apply SP|auto]. Qed.
Lemma srt_keys l k : In k (keys (srt l)) <-> In k (keys l).
Proof. split; apply Permutation_in; [|symmetry]; apply Permutation_map, SP. Qed.
Lemma bk_nb_up x : up (bk_nb srt G x).
Proof. apply srt_up. rewrite map_map. apply NP. Qed.
Lemma bk_nb_keys x y : In y (keys (bk_nb srt G x)) <-> nb x y.
Proof. unfold bk_nb. rewrite srt_keys, map_map. apply row_keys. Qed.

(** a maximal clique: no vertex outside has an edge to all members *)
Definition maximal (c : list nat) : Prop := clique G c /\ c <> [] /\ forall v, (forall x, In x c -> nb v x) -> False.
(** two lists with the same members *)
Definition differ (c d : list nat) : Prop := exists x, (In x c /\ ~ In x d) \/ (In x d /\ ~ In x c).
Inductive distinct : list (list nat) -> Prop :=
| dis_nil : distinct []
| dis_snoc cs c : distinct cs -> (forall d, In d cs -> differ d c) -> distinct (cs ++ [c]).

(** what bronKerbosch gets: R a clique, P and X together its common neighbours, P behind the first member r *)
Record bst (r : nat) (R : list nat) (P X : list (nat * N)) : Prop := {
  b_up : up P; b_ux : up X; b_cl : clique G R; b_r : In r R; b_gt : forall k, In k (keys P) -> r < k;
  b_com : forall v, In v (keys P) \/ In v (keys X) <-> forall x, In x R -> nb v x;
  b_dis : forall v, In v (keys P) -> In v (keys X) -> False }.
(** what a run adds: maximal cliques between R and R with P *)
Definition adds (R : list nat) (P : list (nat * N)) (D : list (list nat)) : Prop :=
  forall c, In c D -> maximal c /\ incl R c /\ forall x, In x c -> In x R \/ In x (keys P).

Lemma bst_step r R P X v P1 X1 : bst r R P X -> In v (keys P) -> keys P1 = filter (inb (keys (bk_nb srt G v))) (keys P) -> keys X1 = filter (inb (keys (bk_nb srt G v))) (keys X) ->
  bst r (R ++ [v]) P1 X1 /\ length P1 < length P.
Proof.
  intros [U1 U2 CL Ir Gt Com Dis] Iv EP EX. assert (Cv : forall x, In x R -> nb v x) by (apply Com; auto).
  assert (KP : forall k, In k (keys P1) <-> In k (keys P) /\ nb v k) by (intro k; rewrite EP, filter_In, inb_In, bk_nb_keys; tauto).
  assert (KX : forall k, In k (keys X1) <-> In k (keys X) /\ nb v k) by (intro k; rewrite EX, filter_In, inb_In, bk_nb_keys; tauto).
  assert (NvR : ~ In v R) by (intro I; specialize (Cv v I); apply nb_half in Cv; tauto).
  split.
  - split; [eapply up_filter; [exact U1|eauto]|eapply up_filter; [exact U2|eauto]| |apply in_app_iff; auto|intros k I; apply KP in I; apply Gt; tauto| |].
    + destruct CL as (ND & Rg & Ad). split; [apply NoDup_app_intro; [auto|repeat constructor; auto|intros x I [<-|[]]; auto]|]. split.
      * intros x I. apply in_app_iff in I as [I|[<-|[]]]; [apply Rg; auto|]. specialize (Cv r Ir). apply nb_half in Cv. apply Cv.
      * intros x y I J Nxy. apply in_app_iff in I. apply in_app_iff in J. destruct I as [I|[<-|[]]], J as [J|[<-|[]]]; [apply Ad; auto|apply nb_half; apply Cv; auto|apply Cv; auto|congruence].
    + intro u. rewrite KP, KX. split.
      * intros H x I. apply in_app_iff in I as [I|[<-|[]]]; [apply Com; tauto|]. assert (nb v u) as Q by tauto. apply nb_half in Q. apply Q.
      * intro H. assert (In u (keys P) \/ In u (keys X)) by (apply Com; intros x I; apply H; apply in_app_iff; auto). assert (Q : nb u v) by (apply H; apply in_app_iff; right; left; auto). apply nb_half in Q. destruct Q as (_ & _ & _ & Q). tauto.
    + intros u I J. apply KP in I. apply KX in J. apply (Dis u); tauto.
  - assert (LL : length (keys P1) < length (keys P)); [|rewrite !map_length in LL; exact LL].
    assert (Inc : incl (v :: keys P1) (keys P)) by (intros k [<-|I]; [auto|apply KP in I; tauto]).
    assert (ND : NoDup (v :: keys P1)). { constructor; [intro I; apply KP in I as [_ Q]; apply nb_half in Q; tauto|]. apply up_nodup. eapply up_filter; [exact U1|eauto]. }
    pose proof (NoDup_incl_length ND Inc). cbn in H. lia.
Qed.
Lemma bst_next r R P X v : bst r R P X -> In v (keys P) -> bst r R (bk_erase v P) (bk_insert v X).
Proof.
  intros [U1 U2 CL Ir Gt Com Dis] Iv. pose proof (erase_keys v P (up_nodup _ U1)) as KE. split; auto; [apply erase_up; auto|apply insert_up; auto|intros k I; apply KE in I; apply Gt; tauto| |].
  - intro u. rewrite KE, insert_keys, <- Com. destruct (Nat.eq_dec u v) as [->|]; tauto.
  - intros u I J. apply KE in I. apply insert_keys in J. destruct J as [J| ->]; [apply (Dis u); tauto|tauto].
Qed.

Lemma distinct_app cs D : distinct cs -> distinct D -> (forall d c, In d cs -> In c D -> differ d c) -> distinct (cs ++ D).
Proof.
  intros C HD. revert cs C. induction HD as [|D c HD IH N]; intros cs C H; [rewrite app_nil_r; auto|]. rewrite app_assoc. constructor.
  - apply IH; auto. intros. apply H; auto. apply in_app_iff. auto.
  - intros d I. apply in_app_iff in I as [I|I]; [apply H; auto; apply in_app_iff; right; left; auto|apply N; auto].
Qed.

Definition run_ok (R : list nat) (P : list (nat * N)) (cs : list (list nat)) (o : option (bool * list (list nat))) : Prop :=
  exists b D, o = Some (b, cs ++ D) /\ adds R P D /\ distinct D.

Lemma loop_ok call r R ex : forall todo P X light cs,
  (forall P1 R1 X1 e l cs1, bst r R1 P1 X1 -> length P1 < length P -> run_ok R1 P1 cs1 (call P1 R1 X1 e l cs1)) ->
  bst r R P X -> NoDup (keys todo) -> incl (keys todo) (keys P) -> run_ok R P cs (bk_loop call srt G R ex todo P X light cs).
Proof.
  induction todo as [|[v w] todo IH]; intros P X light cs HC B ND Sub; cbn [bk_loop].
  - exists true, []. rewrite app_nil_r. split; [reflexivity|]. split; [intros c []|constructor].
  - assert (Iv : In v (keys P)) by (apply Sub; left; auto). cbn [map fst] in ND. inversion ND as [|? ? Nv ND']; subst.
    destruct (ni_ok (bk_nb srt G v) P R X ex light r (bk_nb_up v) (b_up _ _ _ _ B) (b_ux _ _ _ _ B)) as (P1 & X1 & ce & l1 & -> & EP & EX).
    { apply bk_nb_keys. apply (proj1 (b_com _ _ _ _ B v)); [auto|apply (b_r _ _ _ _ B)]. } { apply (b_gt _ _ _ _ B). }
    destruct (_ <=? _)%N; [exists false, []; rewrite app_nil_r; split; [reflexivity|]; split; [intros c []|constructor]|].
    destruct (bst_step r R P X v P1 X1 B Iv EP EX) as [B1 L1].
    assert (KP : forall k, In k (keys P1) -> In k (keys P)) by (intros k I; rewrite EP in I; apply filter_In in I; tauto).
    destruct (HC P1 (R ++ [v]) X1 ce l1 cs B1 L1) as (b & D & -> & AD & DD).
    assert (AD' : adds R P D). { intros c I. destruct (AD c I) as (M & I1 & I2). split; [auto|]. split; [intros x J; apply I1, in_app_iff; auto|]. intros x J. destruct (I2 x J) as [K|K]; [apply in_app_iff in K as [K|[<-|[]]]; auto|auto]. }
    destruct b; [|exists false, D; auto].
    pose proof (bst_next r R P X v B Iv) as B2. pose proof (erase_keys v P (up_nodup _ (b_up _ _ _ _ B))) as KE.
    destruct (IH (bk_erase v P) (bk_insert v X) l1 (cs ++ D)) as (b2 & D2 & -> & AD2 & DD2); auto.
    + intros; apply HC; auto. pose proof (erase_len v P). lia.
    + intros k I. apply KE. split; [apply Sub; right; auto|intros ->; contradiction].
    + exists b2, (D ++ D2). rewrite app_assoc. split; [reflexivity|]. split.
      * intros c I. apply in_app_iff in I as [I|I]; [apply AD'; auto|]. destruct (AD2 c I) as (M & I1 & I2). split; [auto|]. split; [auto|]. intros x J. destruct (I2 x J) as [K|K]; [auto|apply KE in K; tauto].
      * apply distinct_app; auto. intros d c Id Ic. exists v. left. destruct (AD d Id) as (_ & I1 & _). split; [apply I1, in_app_iff; right; left; auto|]. destruct (AD2 c Ic) as (_ & _ & I2). intro J. destruct (I2 v J) as [K|K]; [|apply KE in K; tauto].
        assert (Q : nb v v) by (apply (proj1 (b_com _ _ _ _ B v)); auto). apply nb_half in Q. tauto.
Qed.

Lemma bk_ok r : forall fuel P R X ex light cs, length P < fuel -> bst r R P X -> run_ok R P cs (bk fuel srt G P R X ex light cs).
Proof.
  induction fuel as [|fuel IH]; intros P R X ex light cs L B; [lia|]. cbn [bk]. destruct (_ <? _)%N; [exists false, []; rewrite app_nil_r; split; [reflexivity|]; split; [intros c []|constructor]|].
  destruct P as [|[v w] P'].
  - destruct X as [|x X].
    + exists true, [R]. split; [reflexivity|]. split; [|apply (dis_snoc []); [constructor|intros ? []]]. intros c [<-|[]]. split; [|split; [apply incl_refl|auto]].
      split; [apply B|]. split; [intro Z; pose proof (b_r _ _ _ _ B) as I; rewrite Z in I; destruct I|]. intros u H. apply (b_com _ _ _ _ B) in H. destruct H as [[]|[]].
    + exists true, []. rewrite app_nil_r. split; [reflexivity|]. split; [intros c []|constructor].
  - apply (loop_ok _ r); auto.
    + intros. apply IH; auto. lia.
    + apply diff_nodup, up_nodup, B.
    + intros k I. eapply diff_sub; eauto.
Qed.

Lemma vertex_ok cs v : v < n -> exists D, fc_vertex srt G cs v = Some (cs ++ D) /\ (forall c, In c D -> maximal c /\ In v c /\ forall x, In x c -> v <= x) /\ distinct D.
Proof.
  intro Hv. unfold fc_vertex. set (row := map fst (nth v (m_rows G) [])). set (P := filter (fun e => v <? fst e) row). set (X := filter (fun e => negb (v <? fst e)) row).
  assert (NDr : NoDup (keys row)) by (unfold row; rewrite map_map; apply NP).
  assert (ND : forall f, NoDup (keys (filter f row))). { intro f. clear -NDr. induction row as [|e l IH]; [constructor|]. cbn [map] in NDr. inversion NDr as [|? ? A B]; subst. cbn [filter]. destruct (f e); [|auto]. cbn [map]. constructor; [|auto]. intro I. apply A. apply in_map_iff in I as (z & <- & I). apply filter_In in I as [I _]. apply in_map. auto. }
  assert (KR : forall k, In k (keys row) <-> nb v k) by (intro k; unfold row; rewrite map_map; apply row_keys).
  assert (KP : forall k, In k (keys (srt P)) <-> nb v k /\ v < k).
  { intro k. rewrite srt_keys. unfold P. rewrite in_map_iff. split; [intros (e & <- & I); apply filter_In in I as [I Q]; apply Nat.ltb_lt in Q; split; [apply KR, in_map; auto|auto]|]. intros [I Q]. apply KR, in_map_iff in I as (e & <- & I). exists e. split; [auto|]. apply filter_In. split; [auto|apply Nat.ltb_lt; auto]. }
  assert (KX : forall k, In k (keys (srt X)) <-> nb v k /\ k < v).
  { intro k. rewrite srt_keys. unfold X. rewrite in_map_iff. split; [intros (e & <- & I); apply filter_In in I as [I Q]; apply negb_true_iff, Nat.ltb_ge in Q; assert (J : nb v (fst e)) by (apply KR, in_map; auto); split; [auto|apply nb_half in J; lia]|]. intros [I Q]. apply KR, in_map_iff in I as (e & <- & I). exists e. split; [auto|]. apply filter_In. split; [auto|]. apply negb_true_iff, Nat.ltb_ge. lia. }
  destruct (bk_ok v (S (length P)) (srt P) [v] (srt X) (fold_left (fun s e => ((s + snd e) mod 2 ^ 64)%N) X 0%N) undef_w cs) as (b & D & -> & AD & DD).
  - rewrite (Permutation_length (SP P)). lia.
  - split; [apply srt_up, ND|apply srt_up, ND| |left; auto|intros k I; apply KP in I; tauto| |].
    + split; [repeat constructor; auto|]. split; [intros x [<-|[]]; auto|]. intros x y [<-|[]] [<-|[]] Q. congruence.
    + intro u. rewrite KP, KX. split.
      * intros H x [<-|[]]. assert (Q : nb v u) by tauto. apply nb_half in Q. apply Q.
      * intro H. specialize (H v (or_introl eq_refl)). apply nb_half in H. destruct H as (_ & _ & A & B). assert (u < v \/ v < u) as [?|?] by lia; tauto.
    + intros u I J. apply KP in I. apply KX in J. lia.
  - exists D. split; [reflexivity|]. split; [|auto]. intros c I. destruct (AD c I) as (M & I1 & I2). split; [auto|]. split; [apply I1; left; auto|]. intros x J. destruct (I2 x J) as [[<-|[]]|K]; [auto|]. apply KP in K. lia.
Qed.

Theorem find_cliques_ok : exists cs, find_cliques srt G = Some cs /\ (forall c, In c cs -> maximal c) /\ distinct cs.
Proof.
  unfold find_cliques. assert (H : forall m b cs, b + m <= n -> distinct cs -> (forall c, In c cs -> maximal c /\ exists x, In x c /\ x < b) ->
    exists cs', fold_left (fun o v => match o with Some cs => fc_vertex srt G cs v | None => None end) (seq b m) (Some cs) = Some cs' /\ (forall c, In c cs' -> maximal c) /\ distinct cs').
  { induction m as [|m IH]; intros b cs L D M; cbn [seq fold_left]; [exists cs; split; [auto|]; split; [intros c I; apply M; auto|auto]|].
    destruct (vertex_ok cs b) as (E & -> & ME & DE); [lia|]. apply IH; [lia| |].
    - apply distinct_app; auto. intros d c Id Ic. destruct (M d Id) as (_ & x & Ix & Lx). exists x. left. split; [auto|]. intro J. destruct (ME c Ic) as (_ & _ & Q). specialize (Q x J). lia.
    - intros c I. apply in_app_iff in I as [I|I]; [destruct (M c I) as (A & x & J & K); split; [auto|exists x; split; [auto|lia]]|]. destruct (ME c I) as (A & J & _). split; [auto|]. exists b. split; [auto|lia]. }
  apply H; [unfold n; lia|constructor|intros c []].
Qed.
End Search.
