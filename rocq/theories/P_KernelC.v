(* P_KernelC.v - contractIfImproved contracts exactly the classes of the union-find. *)
From Coq Require Import Permutation.
From Verif Require Import SpecRel P_UnionFind P_Cut P_Mutable P_Mutable7 P_MutableIO P_Multi P_Kernel.

Lemma add_class_keys r x : forall cls, NoDup (map fst cls) ->
  NoDup (map fst (add_class r x cls)) /\ (forall k, In k (map fst (add_class r x cls)) <-> k = r \/ In k (map fst cls)).
Proof.
  induction cls as [|[r' xs] cls IH]; intro ND; cbn [add_class].
  - cbn. split; [repeat constructor; auto|]. intro. intuition.
  - inversion ND as [|? ? N1 N2]. subst. destruct (Nat.eqb_spec r' r) as [->|Nr]; cbn [map fst].
    + split; [auto|]. intro k. cbn. intuition.
    + destruct (IH N2) as [A B]. split.
      * constructor; [|auto]. rewrite B. cbn in N1. intuition congruence.
      * intro k. cbn. rewrite B. intuition.
Qed.

Lemma add_class_spec r x k ys : forall cls, NoDup (map fst cls) ->
  (In (k, ys) (add_class r x cls) <->
   (k <> r /\ In (k, ys) cls) \/ (k = r /\ ((exists xs, In (r, xs) cls /\ ys = xs ++ [x]) \/ (~ In r (map fst cls) /\ ys = [x])))).
Proof.
  induction cls as [|[r' xs] cls IH]; intro ND; cbn [add_class].
  - cbn. split.
    + intros [E|[]]. injection E as <- <-. right. split; auto.
    + intros [[_ []]|[-> [(xs & [] & _)|[_ ->]]]]. auto.
  - inversion ND as [|? ? N1 N2]. subst. cbn in N1. destruct (Nat.eqb_spec r' r) as [->|Nr].
    + cbn [In map fst]. split.
      * intros [E|E]; [injection E as <- <-; right; split; [auto|left; exists xs; auto]|].
        left. split; [|auto]. intros ->. apply N1. apply in_map_iff. exists (r, ys). auto.
      * intros [[N E]|[-> [(zs & [E|E] & ->)|[N _]]]].
        -- destruct E as [E|E]; [congruence|auto].
        -- injection E as <-. auto.
        -- exfalso. apply N1. apply in_map_iff. exists (r, zs). auto.
        -- exfalso. apply N. auto.
    + cbn [In map fst]. rewrite (IH N2). split.
      * intros [E|[[A B]|[-> [(zs & A & ->)|[A ->]]]]].
        -- injection E as <- <-. left. auto.
        -- left. auto.
        -- right. split; [auto|]. left. exists zs. auto.
        -- right. split; [auto|]. right. split; [|auto]. intros [?|?]; [congruence|auto].
      * intros [[A [E|B]]|[-> [(zs & [E|A] & ->)|[A ->]]]].
        -- auto.
        -- right. left. auto.
        -- congruence.
        -- right. right. split; [auto|]. left. exists zs. auto.
        -- right. right. split; [auto|]. right. split; [|auto]. intro. apply A. auto.
Qed.

Section Classes.
Context (G : mg) (ps : list (nat * nat)).
Let n := m_n G.
Definition first_of (G : mg) (u : nat) : nat := hd 0 (nth u (m_cont G) []).
Let first := first_of G.
Context (NE : forall p, p < n -> nth p (m_cont G) [] <> []).
Context (GE : groups_exact n (m_cont G) (m_pos G)).

Lemma first_pos u : u < n -> first u < length (m_pos G) /\ nth (first u) (m_pos G) 0 = u.
Proof.
  intro Hu. apply (proj2 GE u (first u) Hu). unfold first, first_of. specialize (NE u Hu). destruct (nth u (m_cont G) []); [congruence|left; reflexivity].
Qed.
Lemma first_inj u v : u < n -> v < n -> first u = first v -> u = v.
Proof. intros Hu Hv E. rewrite <- (proj2 (first_pos u Hu)), <- (proj2 (first_pos v Hv)), E. reflexivity. Qed.

Record clsinv (p : list nat) (done : list nat) (cls : list (nat * list nat)) : Prop := {
  c_nd : NoDup (map fst cls);
  c_in : forall r xs, In (r, xs) cls -> forall x, In x xs <-> exists m, In m done /\ Root p m r /\ x = first m;
  c_all : forall m, In m done -> exists r xs, In (r, xs) cls /\ Root p m r }.

Lemma uf_classes_ok p : forall ns done u cls, (forall y s, Root (parent u) y s <-> Root p y s) -> inv n ps u -> (forall m, In m ns -> m < n) ->
  clsinv p done cls -> exists cls', uf_classes G ns u cls = Some cls' /\ clsinv p (done ++ ns) cls'.
Proof.
  induction ns as [|m ns IH]; intros done u cls RR I Hns C; cbn [uf_classes].
  - exists cls. rewrite app_nil_r. auto.
  - assert (Hm : m < n) by (apply Hns; left; auto).
    destruct (find_inv n ps u m I Hm) as (u' & r & -> & I' & _ & _ & Rm & RR').
    destruct (nth m (m_cont G) []) as [|x c] eqn:Ec; [exfalso; apply (NE m); auto|].
    assert (Ex : x = first m) by (unfold first, first_of; rewrite Ec; reflexivity).
    assert (Rm' : Root p m r) by (apply RR; auto). rewrite app_mid.
    apply IH; auto.
    + intros y s. rewrite RR'. apply RR.
    + intros k Hk. apply Hns. right. auto.
    + destruct C as [ND IN AL]. pose proof (add_class_keys r x cls ND) as [ND' _]. constructor; auto.
      * intros k ys Hk z. apply (add_class_spec r x k ys cls ND) in Hk. destruct Hk as [[Nk Hk]|[-> [(xs & Hxs & ->)|[Nr ->]]]].
        -- rewrite (IN k ys Hk z). split; intros (q & A & B & D).
           ++ exists q. rewrite in_app_iff. auto.
           ++ apply in_app_or in A. destruct A as [A|[<-|[]]]; [exists q; auto|]. exfalso. apply Nk. eapply Root_fun; eauto.
        -- rewrite in_app_iff, (IN r xs Hxs z). split.
           ++ intros [(q & A & B & D)|[<-|[]]]; [exists q; rewrite in_app_iff; auto|]. exists m. rewrite in_app_iff. cbn. auto.
           ++ intros (q & A & B & D). apply in_app_or in A. destruct A as [A|[<-|[]]]; [left; exists q; auto|]. right. left. congruence.
        -- split.
           ++ intros [<-|[]]. exists m. rewrite in_app_iff. cbn. auto.
           ++ intros (q & A & B & D). apply in_app_or in A. destruct A as [A|[<-|[]]]; [|left; congruence].
              destruct (AL q A) as (r' & xs & Hc & R'). exfalso. apply Nr. replace r with r' by (eapply Root_fun; eauto). apply in_map_iff. exists (r', xs). auto.
      * intros q Hq. apply in_app_or in Hq. destruct Hq as [Hq|[<-|[]]].
        -- destruct (AL q Hq) as (r' & xs & Hc & R'). destruct (Nat.eq_dec r' r) as [->|Nr].
           ++ exists r, (xs ++ [x]). split; [|auto]. apply add_class_spec; auto. right. split; [auto|]. left. exists xs. auto.
           ++ exists r', xs. split; [|auto]. apply add_class_spec; auto.
        -- destruct (in_dec Nat.eq_dec r (map fst cls)) as [Hr|Hr].
           ++ apply in_map_iff in Hr. destruct Hr as ([r' xs] & E & Hr). cbn in E. subst r'.
              exists r, (xs ++ [x]). split; [|auto]. apply add_class_spec; auto. right. split; [auto|]. left. exists xs. auto.
           ++ exists r, [x]. split; [|auto]. apply add_class_spec; auto.
Qed.

(** progress of the contraction: gk contains the original classes listed in done *)
Record cstate (done : list (nat * list nat)) (Gk : mg) (g : nat -> nat) : Prop := {
  s_valid : mvalid Gk;
  s_part : length (m_part Gk) = m_n Gk;
  s_cut : length (m_cut Gk) = m_n Gk;
  s_groups : groups_exact (m_n Gk) (m_cont Gk) (m_pos Gk);
  s_len : length (m_pos Gk) = length (m_pos G);
  s_pos : forall x, x < length (m_pos G) -> nth x (m_pos Gk) 0 = g (nth x (m_pos G) 0);
  s_clus : clustering n g (m_n Gk);
  s_contr : contraction_of n (wt (adj (m_rows G))) g (m_n Gk) (wt (adj (m_rows Gk)));
  s_eq : forall u v, u < n -> v < n -> (g u = g v <-> u = v \/ exists c, In c done /\ In (first u) (snd c) /\ In (first v) (snd c)) }.

Lemma contract_class_ok ord c Gk g done : (forall l, Permutation (ord l) l) -> cstate done Gk g ->
  (forall x, In x (snd c) -> exists u, u < n /\ x = first u) ->
  (forall d x, In d done -> In x (snd d) -> In x (snd c) -> False) ->
  exists G' g', contract_class ord Gk (snd c) = Some G' /\ cstate (done ++ [c]) G' g'.
Proof.
  intros OP S Hc DJ. destruct c as [r xs]. cbn [snd] in *.
  assert (SAME : (forall x y, In x xs -> In y xs -> x = y) -> cstate (done ++ [(r, xs)]) Gk g).
  { intro Q. destruct S as [A1 A2 A3 A4 A5 A6 A7 A8 A9]. constructor; auto. intros u v Hu Hv. rewrite (A9 u v Hu Hv). split.
    - intros [->|(c & B & D)]; [auto|right; exists c; rewrite in_app_iff; tauto].
    - intros [->|(c & B & D)]; [auto|]. apply in_app_or in B. destruct B as [B|[<-|[]]]; [right; exists c; auto|].
      left. apply first_inj; auto. apply Q; apply D. }
  destruct xs as [|x0 [|x1 xs]].
  { exists Gk, g. split; [reflexivity|]. apply SAME. intros x y []. }
  { exists Gk, g. split; [reflexivity|]. apply SAME. intros x y [<-|[]] [<-|[]]. reflexivity. }
  clear SAME. unfold contract_class. set (X := x0 :: x1 :: xs) in *.
  set (vs := ord (nodup Nat.eq_dec (map (fun x => nth x (m_pos Gk) 0) X))).
  assert (NDv : NoDup vs) by (eapply Permutation_NoDup; [apply Permutation_sym, OP|apply NoDup_nodup]).
  assert (IV : forall p, In p vs <-> exists u, u < n /\ In (first u) X /\ p = g u).
  { intro p. destruct S as [A1 A2 A3 A4 A5 A6 A7 A8 A9]. unfold vs. split.
    - intro H. apply (Permutation_in _ (OP _)) in H. apply nodup_In, in_map_iff in H. destruct H as (x & <- & Hx).
      destruct (Hc x Hx) as (u & Hu & ->). destruct (first_pos u Hu) as [F1 F2]. exists u. split; [auto|]. split; [auto|]. rewrite A6 by auto. congruence.
    - intros (u & Hu & Hx & ->). apply (Permutation_in _ (Permutation_sym (OP _))). apply nodup_In, in_map_iff. exists (first u). split; [|auto].
      destruct (first_pos u Hu) as [F1 F2]. rewrite A6 by auto. congruence. }
  destruct S as [A1 A2 A3 A4 A5 A6 A7 A8 A9].
  destruct (contract_set_ok Gk vs A1 NDv A2 A3) as (G' & f & E & V' & P' & C' & CL & MG & CT & GR).
  destruct (GR A4) as (GR1 & GR2 & GR3). exists G', (fun u => f (g u)). split; [exact E|].
  assert (INv : forall u, u < n -> (In (g u) vs <-> In (first u) X)).
  { intros u Hu. rewrite IV. split; [|intro; exists u; auto]. intros (u' & Hu' & Hx & Eg). apply A9 in Eg; auto. destruct Eg as [->|(d & D1 & D2 & D3)]; [auto|].
    exfalso. eapply DJ; [exact D1|exact D3|exact Hx]. }
  constructor; auto.
  - congruence.
  - intros x Hx. rewrite GR3 by lia. f_equal. auto.
  - eapply clustering_compose; eauto.
  - eapply contraction_compose; eauto. apply A7.
  - intros u v Hu Hv. rewrite (MG (g u) (g v)) by (apply A7; auto). rewrite (INv u Hu), (INv v Hv), (A9 u v Hu Hv). split.
    + intros [[->|(d & D)]|[B D]]; [auto| |].
      * right. exists d. rewrite in_app_iff. tauto.
      * right. exists (r, X). rewrite in_app_iff. cbn. auto.
    + intros [->|(d & D & D')]; [auto|]. apply in_app_or in D. destruct D as [D|[<-|[]]]; [left; right; exists d; auto|right; auto].
Qed.

Lemma contract_classes_ok ord : (forall l, Permutation (ord l) l) -> forall cls Gk g done, cstate done Gk g ->
  (forall c x, In c cls -> In x (snd c) -> exists u, u < n /\ x = first u) ->
  NoDup (map fst (done ++ cls)) ->
  (forall c d x, In c (done ++ cls) -> In d (done ++ cls) -> In x (snd c) -> In x (snd d) -> fst c = fst d) ->
  exists G' g', contract_classes ord cls Gk = Some G' /\ cstate (done ++ cls) G' g'.
Proof.
  intro OP. induction cls as [|c cls IH]; intros Gk g done S Hc ND DJ; cbn [contract_classes].
  - exists Gk, g. rewrite app_nil_r. auto.
  - destruct (contract_class_ok ord c Gk g done OP S) as (G1 & g1 & E & S1).
    + intros x Hx. eapply Hc; [left; reflexivity|auto].
    + intros d x Hd Hx Hx'. assert (Q : fst d = fst c) by (apply (DJ d c x); auto; apply in_or_app; cbn; auto).
      rewrite map_app in ND. cbn in ND. apply NoDup_remove_2 in ND. apply ND, in_or_app. left. rewrite <- Q. apply in_map. auto.
    + destruct c as [r xs]. cbn [snd] in E. rewrite E. pose proof (app_mid done (r, xs) cls) as AM. rewrite AM in ND, DJ |- *.
      apply (IH G1 g1 (done ++ [(r, xs)])); auto. intros c x H. apply Hc. right. auto.
Qed.
End Classes.

Lemma filter_le {A} (f : A -> bool) l : length (filter f l) <= length l.
Proof. induction l as [|a l IH]; cbn; [lia|]. destruct (f a); cbn; lia. Qed.
Lemma filter_full {A} (f : A -> bool) l : length (filter f l) = length l -> forall x, In x l -> f x = true.
Proof.
  induction l as [|a l IH]; cbn; intros E x H; [contradiction|].
  pose proof (filter_le f l). destruct (f a) eqn:Ea; cbn in E; [|lia]. destruct H as [<-|H]; auto.
Qed.

Theorem contract_if_improved_ok ord G ps u : (forall l, Permutation (ord l) l) -> mvalid G ->
  length (m_part G) = m_n G -> length (m_cut G) = m_n G -> groups_exact (m_n G) (m_cont G) (m_pos G) ->
  (forall p, p < m_n G -> nth p (m_cont G) [] <> []) -> inv (m_n G) ps u ->
  exists G' g, contract_if_improved ord u G = Some G' /\ mvalid G' /\ length (m_part G') = m_n G' /\ length (m_cut G') = m_n G' /\
    groups_exact (m_n G') (m_cont G') (m_pos G') /\ (forall p, p < m_n G' -> nth p (m_cont G') [] <> []) /\
    clustering (m_n G) g (m_n G') /\ (forall a b, a < m_n G -> b < m_n G -> (g a = g b <-> conn ps a b)) /\
    contraction_of (m_n G) (wt (adj (m_rows G))) g (m_n G') (wt (adj (m_rows G'))) /\
    length (m_pos G') = length (m_pos G) /\ (forall x, x < length (m_pos G) -> nth x (m_pos G') 0 = g (nth x (m_pos G) 0)).
Proof.
  intros OP MV LP LC GE NE I.
  assert (S0 : cstate G [] G (fun u => u)).
  { constructor; auto.
    - split; [auto|]. intros p Hp. exists p. auto.
    - intros p q Hp Hq Npq. symmetry.
      rewrite (bsum_ext (m_n G) _ (fun a => if p =? a then wt (adj (m_rows G)) p q else 0%N)).
      + rewrite (bsum_pick (m_n G) p (fun _ => wt (adj (m_rows G)) p q) (fun _ => true)) by auto. reflexivity.
      + intros a Ha. rewrite (Nat.eqb_sym p a). destruct (Nat.eqb_spec a p) as [->|Na]; cbn [andb]; [|apply bsum_zero; auto].
        rewrite (bsum_ext (m_n G) _ (fun b => if q =? b then wt (adj (m_rows G)) p q else 0%N)).
        * apply (bsum_pick (m_n G) q (fun _ => wt (adj (m_rows G)) p q) (fun _ => true)). auto.
        * intros b Hb. rewrite (Nat.eqb_sym q b). destruct (Nat.eqb_spec b q) as [->|]; auto.
    - intros a b _ _. split; [auto|]. intros [?|(c & [] & _)]. auto. }
  assert (FIN : exists G' g done, contract_if_improved ord u G = Some G' /\ cstate G done G' g /\
     forall a b, a < m_n G -> b < m_n G -> ((a = b \/ exists c, In c done /\ In (first_of G a) (snd c) /\ In (first_of G b) (snd c)) <-> conn ps a b)).
  { unfold contract_if_improved. destruct (Nat.ltb_spec (cnt u) (m_n G)) as [L|L].
    - destruct (uf_classes_ok G ps NE (parent u) (seq 0 (m_n G)) [] u []) as (cls & E & C); auto.
      { tauto. } { intros m Hm. apply in_seq in Hm. lia. } { constructor; [constructor|intros ? ? []|intros ? []]. }
      rewrite E. cbn [app] in C. destruct C as [ND IN AL].
      destruct (contract_classes_ok G NE GE ord OP cls G (fun u => u) [] S0) as (G' & g' & E' & S').
      + intros [r xs] x Hc Hx. apply (IN r xs Hc) in Hx. destruct Hx as (m & Hm & _ & ->). apply in_seq in Hm. exists m. split; [lia|auto].
      + exact ND.
      + cbn [app]. intros [r xs] [r' xs'] x Hc Hd Hx Hx'. apply (IN r xs Hc) in Hx. apply (IN r' xs' Hd) in Hx'.
        destruct Hx as (m & Hm & R1 & ->). destruct Hx' as (m' & Hm' & R2 & Q). apply in_seq in Hm. apply in_seq in Hm'.
        apply (first_inj G NE GE) in Q; [|lia..]. subst m'. cbn. eapply Root_fun; eauto.
      + exists G', g', cls. split; [auto|]. split; [auto|]. intros a b Ha Hb.
        rewrite (inv_conn _ _ _ I a b Ha Hb). split.
        * intros [->|([r xs] & Hc & Xa & Xb)].
          -- destruct (find_inv _ _ _ b I Hb) as (? & r & _ & _ & _ & _ & Rr & _). exists r. auto.
          -- cbn [snd] in *. apply (IN r xs Hc) in Xa. apply (IN r xs Hc) in Xb. destruct Xa as (m & Hm & R1 & Q1). destruct Xb as (m' & Hm' & R2 & Q2).
             apply in_seq in Hm. apply in_seq in Hm'. apply (first_inj G NE GE) in Q1; [|lia..]. apply (first_inj G NE GE) in Q2; [|lia..]. subst. exists r. auto.
        * intros (r & Ra & Rb). right. destruct (AL a) as (r' & xs & Hc & R'); [apply in_seq; lia|].
          assert (r' = r) by (eapply Root_fun; eauto). subst r'. exists (r, xs). split; [auto|]. cbn [snd]. split; apply (IN r xs Hc).
          -- exists a. split; [apply in_seq; lia|auto].
          -- exists b. split; [apply in_seq; lia|auto].
    - exists G, (fun u => u), []. split; [reflexivity|]. split; [auto|]. intros a b Ha Hb.
      rewrite (inv_conn _ _ _ I a b Ha Hb). split.
      + intros [->|(c & [] & _)]. destruct (find_inv _ _ _ b I Hb) as (? & r & _ & _ & _ & _ & Rr & _). exists r. auto.
      + intros (r & Ra & Rb). left. rewrite (inv_cnt _ _ _ I) in L. unfold nroots in L.
        pose proof (inv_len _ _ _ I) as Ln. rewrite Ln in L.
        assert (FU : forall x, x < m_n G -> Root (parent u) x x).
        { intros x Hx. constructor; [lia|]. apply Nat.eqb_eq. apply (filter_full (fun x => nth x (parent u) 0 =? x) (seq 0 (m_n G))); [|apply in_seq; lia].
          pose proof (filter_le (fun x => nth x (parent u) 0 =? x) (seq 0 (m_n G))) as X. rewrite seq_length in *. lia. }
        rewrite (Root_fun _ _ _ _ Ra (FU a Ha)) in *. symmetry. eapply Root_fun; [apply FU; auto|]. auto. }
  destruct FIN as (G' & g & done & E & [A1 A2 A3 A4 A5 A6 A7 A8 A9] & EQ).
  exists G', g. do 5 (split; [auto|]). split.
  { intros p Hp E0. destruct (proj2 A7 p Hp) as (a & Ha & <-). destruct (first_pos G NE GE a Ha) as [F1 F2].
    assert (X : In (first_of G a) (nth (g a) (m_cont G') [])) by (apply (proj2 A4 (g a)); [auto|]; split; [lia|]; rewrite A6 by auto; congruence).
    rewrite E0 in X. contradiction. }
  split; [auto|]. split; [|auto]. intros a b Ha Hb. rewrite (A9 a b Ha Hb). apply EQ; auto.
Qed.
