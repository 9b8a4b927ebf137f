(* P_IsoFlow.v - contraction of isolating blocks. *)
From Coq Require Import Permutation.
From Verif Require Import SpecFlow P_Cut P_Mutable P_Multi P_Kernel P_KernelC P_Kernel3 P_Iso M_IsoFlow P_Flow6.

Definition big (b : list nat) : bool := 1 <? length b.
Definition as_set (p : nat * list nat) : nat * (nat -> bool) := (fst p, mem (snd p)).

Section Blocks.
Context (G : mg) (NE : forall p, p < m_n G -> nth p (m_cont G) [] <> []).
Context (GE : groups_exact (m_n G) (m_cont G) (m_pos G)).
Let n := m_n G.
Let first := first_of G.

Lemma iso_base_ok bl : forall dn, length dn = n -> (forall v, In v bl -> v < n) ->
  exists xs dn', iso_base G bl dn = Some (xs, dn') /\ length dn' = n /\
    (forall x, In x xs <-> exists v, In v bl /\ nth v dn false = false /\ x = first v) /\
    (forall v, nth v dn' false = nth v dn false || mem bl v).
Proof.
  induction bl as [|v bl IH]; intros dn L H; cbn [iso_base].
  - exists [], dn. split; [auto|]. split; [auto|]. split; [intro x; cbn; split; [tauto|intros (v & [] & _)]|]. intro v. cbn. rewrite orb_false_r. reflexivity.
  - assert (Hv : v < n) by (apply H; left; auto). destruct (nth v dn false) eqn:D.
    + destruct (IH dn L ltac:(intros; apply H; right; auto)) as (xs & dn' & -> & L' & A & B). exists xs, dn'. split; [auto|]. split; [auto|]. split.
      * intro x. rewrite A. split; intros (u & Hu & Du & E); exists u; [cbn; auto|]. destruct Hu as [<-|Hu]; [congruence|auto].
      * intro u. rewrite B. unfold mem. cbn [existsb]. destruct (Nat.eqb_spec u v) as [->|]; [rewrite D; reflexivity|reflexivity].
    + pose proof (NE v Hv) as Nv. destruct (nth v (m_cont G) []) as [|x c] eqn:Ec; [congruence|]. assert (Ex : x = first v) by (unfold first, first_of; rewrite Ec; reflexivity).
      destruct (IH (upd dn v true)) as (xs & dn' & -> & L' & A & B); [rewrite upd_length; auto|intros; apply H; right; auto|].
      exists (x :: xs), dn'. split; [auto|]. split; [auto|]. split.
      * intro y. cbn [In]. rewrite A. split.
        -- intros [<-|(u & Hu & Du & E)]; [exists v; auto|]. exists u. split; [auto|]. split; [|auto]. destruct (Nat.eq_dec u v) as [->|N]; [auto|rewrite nth_upd_neq in Du; auto].
        -- intros (u & Hu & Du & E). destruct (Nat.eq_dec u v) as [->|N]; [left; congruence|]. destruct Hu as [<-|Hu]; [congruence|]. right. exists u. rewrite nth_upd_neq by auto. auto.
      * intro u. rewrite B. unfold mem. cbn [existsb]. destruct (Nat.eqb_spec u v) as [->|N]; [rewrite nth_upd_eq by lia; rewrite orb_true_r; reflexivity|rewrite nth_upd_neq by auto; reflexivity].
Qed.

Lemma iso_bases_ok bls : forall lb dn used, map snd lb = filter big bls -> (forall b v, In b bls -> In v b -> v < n) -> length dn = n ->
  (forall v, v < n -> used v = nth v dn false) ->
  exists xss, iso_bases G bls dn = Some xss /\ length xss = length bls /\
    (forall xs x, In xs xss -> In x xs -> exists u, u < n /\ x = first u /\ nth u dn false = false) /\
    (forall i j x, In x (nth i xss []) -> In x (nth j xss []) -> i = j) /\
    (forall u v, u < n -> v < n -> ((exists xs, In xs xss /\ In (first u) xs /\ In (first v) xs) <->
       exists s A, In (s, A) (disjoint_blocks (map as_set lb) used) /\ A u = true /\ A v = true)).
Proof.
  induction bls as [|b bls IH]; intros lb dn used EL Hb L U; cbn [iso_bases].
  - cbn in EL. apply map_eq_nil in EL. subst lb. exists []. split; [auto|]. split; [auto|]. split; [intros ? ? []|]. split.
    + intros i j x H. destruct i; contradiction.
    + intros u v _ _. cbn. split; [intros (? & [] & _)|intros (? & ? & [] & _)].
  - cbn [filter] in EL. unfold big in EL at 1. destruct (1 <? length b) eqn:Eb.
    + destruct lb as [|[s b'] lb]; [discriminate EL|]. cbn [map snd] in EL. injection EL as -> EL.
      destruct (iso_base_ok b dn L) as (xs & dn' & -> & L' & A & B); [intros v Hv; apply (Hb b v); [left; auto|auto]|].
      destruct (IH lb dn' (fun v => used v || mem b v) EL) as (xss & -> & Ln & C & D & E); auto.
      { intros b0 v Hb0. apply Hb. right. auto. } { intros v Hv. rewrite B, U by auto. reflexivity. }
      cbn [option_map]. exists (xs :: xss). split; [auto|]. split; [cbn; congruence|].
      assert (FR : forall ys x, In ys xss -> In x ys -> ~ In x xs).
      { intros ys x Hys Hx Hxs. destruct (C ys x Hys Hx) as (u & Hu & -> & Du). rewrite B in Du. apply orb_false_elim in Du. destruct Du as [D1 D2].
        apply A in Hxs. destruct Hxs as (w & Hw & Dw & Q). assert (Hwn : w < n) by (apply (Hb b w); [left; auto|auto]). apply (first_inj G NE GE) in Q; auto. subst w. apply mem_out in D2. contradiction. }
      split; [|split].
      * intros ys x [<-|Hys] Hx.
        -- apply A in Hx. destruct Hx as (v & Hv & Dv & ->). exists v. split; [apply (Hb b v); [left; auto|auto]|auto].
        -- destruct (C ys x Hys Hx) as (u & Hu & -> & Du). exists u. split; [auto|]. split; [auto|]. rewrite B in Du. apply orb_false_elim in Du. tauto.
      * intros [|i] [|j] x Hi Hj; auto; cbn [nth] in Hi, Hj.
        -- exfalso. destruct (Nat.lt_ge_cases j (length xss)) as [Lj|Lj]; [|rewrite nth_overflow in Hj by auto; contradiction]. eapply FR; [apply nth_In; exact Lj|exact Hj|exact Hi].
        -- exfalso. destruct (Nat.lt_ge_cases i (length xss)) as [Lj|Lj]; [|rewrite nth_overflow in Hi by auto; contradiction]. eapply FR; [apply nth_In; exact Lj|exact Hi|exact Hj].
        -- f_equal. eapply D; eauto.
      * intros u v Hu Hv. cbn [map as_set fst snd disjoint_blocks].
        assert (FM : forall w, w < n -> (In (first w) xs <-> minus (mem b) used w = true)).
        { intros w Hw. rewrite A. unfold minus. rewrite U by auto. split.
          - intros (w' & H1 & H2 & Q). assert (w' < n) by (apply (Hb b w'); [left; auto|auto]). apply (first_inj G NE GE) in Q; auto. subst w'. rewrite (proj2 (mem_In b w)) by auto. rewrite H2. reflexivity.
          - intro Q. apply andb_prop in Q. destruct Q as [Q1 Q2]. apply mem_In in Q1. apply negb_true_iff in Q2. exists w. auto. }
        split.
        -- intros (ys & [<-|Hys] & H1 & H2).
           ++ exists s, (minus (mem b) used). split; [left; auto|]. split; apply FM; auto.
           ++ destruct (proj1 (E u v Hu Hv)) as (s' & A' & H); [exists ys; auto|]. exists s', A'. split; [right; apply H|apply H].
        -- intros (s' & A' & [Q|Q] & H1 & H2).
           ++ injection Q as <- <-. exists xs. split; [left; auto|]. split; apply FM; auto.
           ++ destruct (proj2 (E u v Hu Hv)) as (ys & Hy & H); [exists s', A'; auto|]. exists ys. split; [right; auto|auto].
    + destruct (IH lb dn used EL) as (xss & -> & Ln & C & D & E); auto.
      { intros b0 v Hb0. apply Hb. right. auto. }
      cbn [option_map]. exists ([] :: xss). split; [auto|]. split; [cbn; congruence|]. split; [|split].
      * intros ys x [<-|Hys] Hx; [contradiction|eauto].
      * intros [|i] [|j] x Hi Hj; auto; cbn [nth] in Hi, Hj; try contradiction. f_equal. eapply D; eauto.
      * intros u v Hu Hv. rewrite <- (E u v Hu Hv). split; [intros (ys & [<-|Hys] & H); [destruct H as [[] _]|exists ys; auto]|intros (ys & Hys & H); exists ys; split; [right; auto|auto]].
Qed.
End Blocks.

Lemma cstate_refl G : mvalid G -> length (m_part G) = m_n G -> length (m_cut G) = m_n G -> groups_exact (m_n G) (m_cont G) (m_pos G) ->
  cstate G [] G (fun u => u).
Proof.
  intros MV LP LC GE. constructor; auto.
  - split; [auto|]. intros p Hp. exists p. auto.
  - intros p q Hp Hq Npq. symmetry.
    rewrite (bsum_ext (m_n G) _ (fun a => if p =? a then wt (adj (m_rows G)) p q else 0%N)).
    + rewrite (bsum_pick (m_n G) p (fun _ => wt (adj (m_rows G)) p q) (fun _ => true)) by auto. reflexivity.
    + intros a Ha. rewrite (Nat.eqb_sym p a). destruct (Nat.eqb_spec a p) as [->|Na]; cbn [andb]; [|apply bsum_zero; auto].
      rewrite (bsum_ext (m_n G) _ (fun b => if q =? b then wt (adj (m_rows G)) p q else 0%N)).
      * apply (bsum_pick (m_n G) q (fun _ => wt (adj (m_rows G)) p q) (fun _ => true)). auto.
      * intros b Hb. rewrite (Nat.eqb_sym q b). destruct (Nat.eqb_spec b q) as [->|]; auto.
  - intros a b _ _. split; [auto|]. intros [?|(c & [] & _)]. auto.
Qed.

Lemma combine_In_nth {A} (l : list A) d k x : In (k, x) (combine (seq 0 (length l)) l) <-> k < length l /\ x = nth k l d.
Proof.
  split.
  - intro H. apply In_nth with (d := (0, d)) in H. rewrite combine_length, seq_length, Nat.min_id in H. destruct H as (i & Hi & E).
    rewrite combine_nth in E by (apply seq_length). rewrite seq_nth in E by auto. injection E as <- <-. auto.
  - intros [H ->]. replace (k, nth k l d) with (nth k (combine (seq 0 (length l)) l) (0, d)).
    + apply nth_In. rewrite combine_length, seq_length, Nat.min_id. auto.
    + rewrite combine_nth by (apply seq_length). rewrite seq_nth by auto. reflexivity.
Qed.
Lemma map_fst_combine_seq {A} (l : list A) : map fst (combine (seq 0 (length l)) l) = seq 0 (length l).
Proof.
  generalize 0. induction l as [|a l IH]; intro k; cbn; [reflexivity|]. f_equal. apply IH.
Qed.

Lemma contract_blocks_ok ord G bls lb : (forall l, Permutation (ord l) l) -> mvalid G -> length (m_part G) = m_n G -> length (m_cut G) = m_n G ->
  groups_exact (m_n G) (m_cont G) (m_pos G) -> (forall p, p < m_n G -> nth p (m_cont G) [] <> []) ->
  map snd lb = filter big bls -> (forall b v, In b bls -> In v b -> v < m_n G) ->
  exists G1 g done, contract_blocks ord bls G = Some G1 /\ cstate G done G1 g /\
    forall u v, u < m_n G -> v < m_n G -> (g u = g v <-> together (disjoint_blocks (map as_set lb) (fun _ => false)) u v).
Proof.
  intros OP MV LP LC GE NE EL Hb. unfold contract_blocks.
  destruct (iso_bases_ok G NE GE bls lb (repeat false (m_n G)) (fun _ => false) EL Hb) as (xss & -> & Ln & C & D & E).
  { apply repeat_length. } { intros v _. rewrite nth_repeat. reflexivity. }
  set (cls := combine (seq 0 (length xss)) xss).
  destruct (contract_classes_ok G NE GE ord OP cls G (fun u => u) [] (cstate_refl G MV LP LC GE)) as (G1 & g & E1 & S).
  - intros [k xs] x Hc Hx. apply (combine_In_nth xss []) in Hc. destruct Hc as [Hk ->]. destruct (C (nth k xss []) x) as (u & Hu & -> & _); [apply nth_In; auto|auto|]. exists u. auto.
  - cbn [app]. unfold cls. rewrite map_fst_combine_seq. apply seq_NoDup.
  - cbn [app]. intros [k xs] [j ys] x Hc Hd Hx Hy. apply (combine_In_nth xss []) in Hc. apply (combine_In_nth xss []) in Hd. destruct Hc as [Hk ->]. destruct Hd as [Hj ->]. cbn [fst snd] in *. eapply D; eauto.
  - exists G1, g, ([] ++ cls). split; [exact E1|]. split; [exact S|]. intros u v Hu Hv. rewrite (s_eq _ _ _ _ S u v Hu Hv). unfold together. rewrite <- (E u v Hu Hv). split.
    + intros [->|([k xs] & Hc & H)]; [auto|]. right. apply (combine_In_nth xss []) in Hc. destruct Hc as [Hk ->]. exists (nth k xss []). split; [apply nth_In; auto|exact H].
    + intros [->|(xs & Hx & H)]; [auto|]. right. apply In_nth with (d := []) in Hx. destruct Hx as (k & Hk & <-). exists (k, nth k xss []). split; [|exact H]. cbn [app]. apply (combine_In_nth xss []). auto.
Qed.

(** ** the blocks of the flows *)
Fixpoint flow_of (bs : list (nat * list nat)) (ts : list term) : list (nat * list nat) :=
  match bs, ts with
  | b :: bs', t :: ts' => if t_inv t then b :: flow_of bs' ts' else flow_of bs' ts'
  | _, _ => []
  end.

Lemma filter_map_snd {A} (f : list nat -> bool) (l : list (A * list nat)) : filter f (map snd l) = map snd (filter (fun p => f (snd p)) l).
Proof. induction l as [|[a b] l IH]; cbn; [reflexivity|]. destruct (f b); cbn; congruence. Qed.

Section Runs.
Context (run : nat -> option (Z * list nat)).

Lemma blocks_seq_ok ts : forall k bs, length bs = length ts -> (forall i, i < length ts -> exists x, run (k + i) = Some (x, snd (nth i bs (0, [])))) ->
  exists bls, blocks_seq run k ts = Some bls /\ filter big bls = filter big (map snd (flow_of bs ts)) /\
    forall b, In b bls -> In b (map snd (flow_of bs ts)) \/ exists t, In t ts /\ b = [t_at t].
Proof.
  induction ts as [|t ts IH]; intros k bs L H; cbn [blocks_seq].
  - destruct bs; [|discriminate L]. exists []. split; [auto|]. split; [auto|]. intros ? [].
  - destruct bs as [|b bs]; [discriminate L|]. destruct (IH (S k) bs) as (bls & -> & A & B); [cbn in L; lia| |].
    { intros i Hi. destruct (H (S i)) as (x & E); [cbn; lia|]. exists x. cbn [nth] in E. rewrite <- E. f_equal. lia. }
    destruct (H 0) as (x & E); [cbn; lia|]. rewrite Nat.add_0_r in E. cbn [nth] in E. cbn [flow_of]. destruct (t_inv t).
    + rewrite E. cbn [option_map snd]. exists (snd b :: bls). split; [auto|]. split; [cbn [map filter]; rewrite A; reflexivity|].
      intros b0 [<-|Hb]; [left; left; auto|]. destruct (B b0 Hb) as [X|(t' & X & Y)]; [left; right; auto|right; exists t'; split; [right; auto|auto]].
    + exists ([t_at t] :: bls). split; [auto|]. split; [cbn [filter]; change (big [t_at t]) with false; cbn; auto|].
      intros b0 [<-|Hb]; [right; exists t; split; [left; auto|auto]|]. destruct (B b0 Hb) as [X|(t' & X & Y)]; [left; auto|right; exists t'; split; [right; auto|auto]].
Qed.

Lemma futures_ok ts : forall k bs, length bs = length ts -> (forall i, i < length ts -> exists x, run (k + i) = Some (x, snd (nth i bs (0, [])))) ->
  futures run k ts = Some (map snd (flow_of bs ts)) /\ length (flow_of bs ts) <= length ts.
Proof.
  induction ts as [|t ts IH]; intros k bs L H; cbn [futures].
  - destruct bs; [|discriminate L]. auto.
  - destruct bs as [|b bs]; [discriminate L|]. destruct (IH (S k) bs) as [A B]; [cbn in L; lia| |].
    { intros i Hi. destruct (H (S i)) as (x & E); [cbn; lia|]. exists x. cbn [nth] in E. rewrite <- E. f_equal. lia. }
    rewrite A. destruct (H 0) as (x & E); [cbn; lia|]. rewrite Nat.add_0_r in E. cbn [nth] in E. cbn [flow_of]. destruct (t_inv t).
    + rewrite E. cbn. split; [auto|lia].
    + cbn. split; [auto|lia].
Qed.

Lemma put_ok fs : forall bs, length fs <= length bs -> (forall b, In b bs -> big b = false) ->
  filter big (put fs bs) = filter big fs /\ forall b, In b (put fs bs) -> In b fs \/ In b bs.
Proof.
  induction fs as [|f fs IH]; intros bs L H.
  - assert (E : put [] bs = bs) by (destruct bs; reflexivity). rewrite E. split; [|auto]. cbn. clear L E. change (filter big bs = []). induction bs as [|b bs IHb]; [reflexivity|]. cbn [filter]. rewrite (H b) by (left; auto). apply IHb. intros; apply H; right; auto.
  - destruct bs as [|b bs]; [cbn in L; lia|]. cbn [put filter]. destruct (IH bs) as [A B]; [cbn in L; lia|intros; apply H; right; auto|]. rewrite A. split; [reflexivity|].
    intros x [<-|Hx]; [left; left; auto|]. destruct (B x Hx); [left; right; auto|right; right; auto].
Qed.

Lemma iso_blocks_ok par ts bs : length bs = length ts -> (forall i, i < length ts -> exists x, run i = Some (x, snd (nth i bs (0, [])))) ->
  exists bls, iso_blocks par run ts = Some bls /\ filter big bls = map snd (filter (fun p => big (snd p)) (flow_of bs ts)) /\
    forall b v, In b bls -> In v b -> In b (map snd (flow_of bs ts)) \/ exists t, In t ts /\ v = t_at t.
Proof.
  intros L H. unfold iso_blocks. destruct par.
  - destruct (futures_ok ts 0 bs L H) as [-> B]. cbn [option_map]. destruct (put_ok (map snd (flow_of bs ts)) (blocks_init ts)) as [C D].
    { unfold blocks_init. rewrite !map_length. auto. } { intros b Hb. apply in_map_iff in Hb. destruct Hb as (t & <- & _). destruct (t_inv t); reflexivity. }
    eexists. split; [reflexivity|]. rewrite C, filter_map_snd. split; [reflexivity|]. intros b v Hb Hv. destruct (D b Hb) as [X|X]; [auto|]. right.
    apply in_map_iff in X. destruct X as (t & <- & Ht). exists t. split; [auto|]. destruct (t_inv t); [contradiction|destruct Hv as [<-|[]]; auto].
  - destruct (blocks_seq_ok ts 0 bs L H) as (bls & E & A & B). exists bls. split; [auto|]. rewrite A, filter_map_snd. split; [reflexivity|].
    intros b v Hb Hv. destruct (B b Hb) as [X|(t & X & ->)]; [auto|]. right. exists t. split; [auto|]. destruct Hv as [<-|[]]; auto.
Qed.
End Runs.

Lemma flow_of_In bs ts p : In p (flow_of bs ts) <-> exists i, i < length bs /\ i < length ts /\ nth i bs (0, []) = p /\ t_inv (nth i ts (0, 0, false)) = true.
Proof.
  revert ts. induction bs as [|b bs IH]; intros [|t ts]; cbn [flow_of].
  - cbn. split; [intros []|intros (i & Hi & _); lia].
  - cbn. split; [intros []|intros (i & Hi & _); lia].
  - cbn. split; [intros []|intros (i & _ & Hi & _); lia].
  - assert (Q : (exists i, i < length (b :: bs) /\ i < length (t :: ts) /\ nth i (b :: bs) (0, []) = p /\ t_inv (nth i (t :: ts) (0, 0, false)) = true) <-> (b = p /\ t_inv t = true) \/ In p (flow_of bs ts)).
    { rewrite IH. split.
      - intros ([|i] & A & B & C & D); [left; auto|right; exists i; cbn in A, B, C, D; split; [lia|split; [lia|auto]]].
      - intros [[A B]|(i & A & B & C & D)]; [exists 0; cbn; split; [lia|split; [lia|auto]]|exists (S i); cbn; split; [lia|split; [lia|auto]]]. }
    rewrite Q. destruct (t_inv t); cbn [In]; intuition congruence.
Qed.
Lemma flow_of_keys bs ts : NoDup (map fst bs) -> NoDup (map fst (flow_of bs ts)).
Proof.
  revert ts. induction bs as [|b bs IH]; intros [|t ts] N; cbn [flow_of]; try constructor. cbn [map] in N. inversion N as [|? ? N1 N2]. subst. destruct (t_inv t); [|auto].
  cbn [map]. constructor; [|auto]. intro X. apply N1. apply in_map_iff in X. destruct X as (p & E & Hp). apply flow_of_In in Hp. destruct Hp as (i & Hi & _ & <- & _). rewrite <- E. apply in_map, nth_In. auto.
Qed.
