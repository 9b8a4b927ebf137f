(* P_Contract.v - contraction of static graphs. *)
From Verif Require Import SpecRel M_UnionFind P_UnionFind SpecBuild P_Graph M_Contract P_Cut.

Definition perm_ord (ord : nat -> list nat -> list nat) : Prop := forall p l, Permutation (ord p l) l.

(** weight from a list of edges to cluster q *)
Definition toq (mapping : list nat) (q : nat) (es : list (nat * N)) : N :=
  sumN snd (filter (fun e => nth (fst e) mapping 0 =? q) es).

Record rinv (mapping : list nat) (p k : nat) (es : list (nat * N)) (st : list nat * list N) : Prop := {
  ri_nd : NoDup (fst st);
  ri_len : length (snd st) = k;
  ri_lt : forall q, In q (fst st) -> q < k /\ q <> p;
  ri_w : forall q, In q (fst st) -> nth q (snd st) 0%N = toq mapping q es;
  ri_pos : forall q, In q (fst st) -> (0 < toq mapping q es)%N;
  ri_out : forall q, ~ In q (fst st) -> q <> p -> toq mapping q es = 0%N }.

Lemma toq_app mapping q a b : toq mapping q (a ++ b) = (toq mapping q a + toq mapping q b)%N.
Proof. unfold toq. rewrite filter_app, sumN_app. reflexivity. Qed.

Lemma toq_one mapping q t w : toq mapping q [(t, w)] = if nth t mapping 0 =? q then w else 0%N.
Proof. unfold toq. simpl. destruct (nth t mapping 0 =? q); simpl; lia. Qed.

Lemma row_edge_ok mapping p k es st t w : rinv mapping p k es st -> t < length mapping -> nth t mapping 0 < k ->
  exists st', row_edge mapping p st (t, w) = Some st' /\ rinv mapping p k (es ++ [(t, w)]) st'.
Proof.
  intros [R1 R2 R3 R4 R5 R6] Ht Hk. destruct st as [pos ws]. cbn [fst snd] in *. unfold row_edge.
  destruct (N.eqb_spec w 0) as [->|W].
  - eexists. split; [reflexivity|].
    assert (Z : forall q, toq mapping q (es ++ [(t, 0%N)]) = toq mapping q es).
    { intro q. rewrite toq_app, toq_one. destruct (_ =? q); lia. }
    constructor; cbn [fst snd]; auto; intros q; rewrite ?Z; auto.
  - rewrite (nth_error_nth_lt _ _ 0) by auto. set (ct := nth t mapping 0) in *.
    assert (Z : forall q, toq mapping q (es ++ [(t, w)]) = (toq mapping q es + if Nat.eqb ct q then w else 0)%N).
    { intro q. rewrite toq_app, toq_one. reflexivity. }
    destruct (Nat.eqb_spec ct p) as [E|E].
    + eexists. split; [reflexivity|].
      constructor; cbn [fst snd]; auto; intros q Hq; rewrite Z; destruct (Nat.eqb_spec ct q) as [E'|E'];
        try (specialize (R3 q Hq); lia); try (rewrite N.add_0_r; auto).
      congruence.
    + rewrite R2. replace (ct <? k) with true by (symmetry; apply Nat.ltb_lt; auto).
      destruct (existsb (Nat.eqb ct) pos) eqn:X.
      * apply existsb_exists in X. destruct X as [y [Hy Ey]]. apply Nat.eqb_eq in Ey. subst y.
        eexists. split; [reflexivity|]. constructor; cbn [fst snd]; auto.
        -- rewrite upd_length; auto.
        -- intros q Hq. rewrite Z, nth_upd, R2. replace (ct <? k) with true by (symmetry; apply Nat.ltb_lt; auto).
           rewrite andb_true_r, (Nat.eqb_sym q ct). destruct (Nat.eqb_spec ct q) as [<-|N]; [rewrite R4 by auto; auto|].
           rewrite N.add_0_r. auto.
        -- intros q Hq. rewrite Z. specialize (R5 q Hq). destruct (ct =? q); lia.
        -- intros q Hq Np. rewrite Z. destruct (Nat.eqb_spec ct q) as [<-|N]; [contradiction|]. rewrite N.add_0_r. auto.
      * assert (NI : ~ In ct pos).
        { intro H. rewrite existsb_false in X. specialize (X ct H). rewrite Nat.eqb_refl in X. discriminate. }
        eexists. split; [reflexivity|]. constructor; cbn [fst snd].
        -- apply (Permutation_NoDup (Permutation_cons_append pos ct)). constructor; auto.
        -- rewrite upd_length; auto.
        -- intros q Hq. apply in_app_or in Hq. destruct Hq as [Hq|[<-|[]]]; auto.
        -- intros q Hq. rewrite Z, nth_upd, R2. replace (ct <? k) with true by (symmetry; apply Nat.ltb_lt; auto).
           rewrite andb_true_r, (Nat.eqb_sym q ct). destruct (Nat.eqb_spec ct q) as [<-|N].
           ++ rewrite R6 by auto. lia.
           ++ rewrite N.add_0_r. apply R4. apply in_app_or in Hq. destruct Hq as [Hq|[Hq|[]]]; congruence || auto.
        -- intros q Hq. rewrite Z. destruct (Nat.eqb_spec ct q) as [<-|N]; [lia|].
           apply in_app_or in Hq. destruct Hq as [Hq|[Hq|[]]]; [|congruence]. specialize (R5 q Hq). lia.
        -- intros q Hq Np. rewrite Z. destruct (Nat.eqb_spec ct q) as [<-|N].
           ++ exfalso. apply Hq. apply in_or_app. right. left. auto.
           ++ rewrite N.add_0_r. apply R6; auto. intro H. apply Hq, in_or_app. auto.
Qed.

Lemma row_edges_ok mapping p k : forall l es st, rinv mapping p k es st ->
  (forall t w, In (t, w) l -> t < length mapping /\ nth t mapping 0 < k) ->
  exists st', row_edges mapping p st l = Some st' /\ rinv mapping p k (es ++ l) st'.
Proof.
  induction l as [|[t w] l IH]; intros es st R H; cbn [row_edges].
  - exists st. rewrite app_nil_r. auto.
  - destruct (H t w (or_introl eq_refl)) as [H1 H2].
    destruct (row_edge_ok mapping p k es st t w R H1 H2) as [st1 [-> R1]].
    destruct (IH _ _ R1) as [st' [-> R']]; [intros; eapply H; right; eauto|].
    exists st'. rewrite <- app_assoc in R'. auto.
Qed.

Lemma row_nodes_ok G mapping p k : (forall u t w, In (t, w) (nth u G []) -> t < length mapping /\ nth t mapping 0 < k) ->
  forall ns es st, rinv mapping p k es st -> (forall v, In v ns -> v < length G) ->
  exists st', row_nodes G mapping p st ns = Some st' /\ rinv mapping p k (es ++ flat_map (fun u => nth u G []) ns) st'.
Proof.
  intro HG. induction ns as [|v ns IH]; intros es st R H; cbn [row_nodes].
  - exists st. cbn [flat_map]. rewrite app_nil_r. auto.
  - rewrite (nth_error_nth_lt _ _ []) by (apply H; left; auto).
    destruct (row_edges_ok mapping p k (nth v G []) es st R) as [st1 [-> R1]]; [intros; eapply HG; eauto|].
    destruct (IH _ _ R1) as [st' [-> R']]; [intros; apply H; right; auto|].
    exists st'. cbn [flat_map]. rewrite app_assoc. auto.
Qed.

(** what a finished row looks like *)
Definition row_ok (mapping : list nat) (p k : nat) (es row : list (nat * N)) : Prop :=
  NoDup (map fst row) /\ (forall q w, In (q, w) row -> q < k /\ q <> p /\ (0 < w)%N) /\
  (forall q, q <> p -> sumN snd (filter (fun e => fst e =? q) row) = toq mapping q es).

Lemma row_done mapping p k es pos ws l : rinv mapping p k es (pos, ws) -> Permutation l pos ->
  row_ok mapping p k es (map (fun t => (t, nth t ws 0%N)) l).
Proof.
  intros [R1 R2 R3 R4 R5 R6] Pm. cbn [fst snd] in *.
  assert (M : map fst (map (fun t => (t, nth t ws 0%N)) l) = l) by (rewrite map_map; apply map_id).
  assert (ND : NoDup l) by (eapply Permutation_NoDup; [apply Permutation_sym; eauto|auto]).
  split; [rewrite M; auto|]. split.
  - intros q w H. apply in_map_iff in H. destruct H as [t [E Ht]]. injection E as <- <-.
    assert (In t pos) by (eapply Permutation_in; eauto). specialize (R3 t H). rewrite R4 by auto.
    specialize (R5 t H). tauto.
  - intros q Nq. rewrite sumN_filter, sumN_map. cbn [fst snd].
    destruct (in_dec Nat.eq_dec q l) as [I|I].
    + rewrite (sumN_single_nat (fun t => nth t ws 0%N)) by auto. apply R4. eapply Permutation_in; eauto.
    + rewrite (sumN_single_out (fun t => nth t ws 0%N)) by auto. symmetry. apply R6; auto.
      intro H. apply I. eapply Permutation_in; [apply Permutation_sym; eauto|auto].
Qed.

Lemma contract_rows_ok ord G mapping k : perm_ord ord ->
  (forall u t w, In (t, w) (nth u G []) -> t < length mapping /\ nth t mapping 0 < k) ->
  forall rev p ws, length ws = k -> (forall ns v, In ns rev -> In v ns -> v < length G) ->
  exists rows, contract_rows ord G mapping p ws rev = Some rows /\ length rows = length rev /\
    forall i, i < length rev -> row_ok mapping (p + i) k (flat_map (fun u => nth u G []) (nth i rev [])) (nth i rows []).
Proof.
  intros Po HG. induction rev as [|ns rev IH]; intros p ws Hw Hv; cbn [contract_rows].
  - exists []. split; [auto|split; [auto|]]. simpl. lia.
  - assert (R0 : rinv mapping p k [] ([], ws)).
    { constructor; cbn [fst snd]; auto; try (intros q []). constructor. }
    destruct (row_nodes_ok G mapping p k HG ns [] ([], ws) R0) as [[pos ws'] [-> R]].
    { intros v H. apply (Hv ns v); [left; auto|auto]. }
    destruct (IH (S p) ws') as [rows [-> [L Q]]].
    { apply (ri_len _ _ _ _ _ R). }
    { intros; eapply Hv; eauto. right; auto. }
    eexists. split; [reflexivity|]. split; [simpl; lia|].
    intros [|i] Hi; cbn [nth].
    + rewrite Nat.add_0_r. eapply row_done; eauto.
    + replace (p + S i) with (S p + i) by lia. apply Q. simpl in Hi. lia.
Qed.

(** weights between clusters *)
Lemma toq_sum G mapping q n ns : n = length G -> (forall u t w, In (t, w) (nth u G []) -> t < n) ->
  toq mapping q (flat_map (fun u => nth u G []) ns) =
  sumN (fun u => bsum n (fun v => if nth v mapping 0 =? q then wt G u v else 0%N)) ns.
Proof.
  intros En HG. unfold toq. rewrite sumN_filter, sumN_flat_map. apply sumN_ext. intros u _.
  specialize (HG u). unfold wt.
  rewrite (bsum_ext n _ (fun v => sumN (fun e => if fst e =? v then (if nth (fst e) mapping 0 =? q then snd e else 0%N) else 0%N) (nth u G []))).
  - unfold bsum. rewrite sumN_swap. apply sumN_ext. intros [t w] He. cbn [fst snd].
    rewrite (sumN_ext _ (fun v => if v =? t then (if nth t mapping 0 =? q then w else 0%N) else 0%N)).
    + symmetry. apply (bsum_single n (fun _ => if nth t mapping 0 =? q then w else 0%N) t). eauto.
    + intros v _. rewrite (Nat.eqb_sym t v). reflexivity.
  - intros v _. rewrite sumN_filter. destruct (nth v mapping 0 =? q) eqn:E.
    + apply sumN_ext. intros e _. destruct (Nat.eqb_spec (fst e) v) as [->|]; [rewrite E|]; reflexivity.
    + symmetry. apply sumN_zero. intros e _. destruct (Nat.eqb_spec (fst e) v) as [->|]; [rewrite E|]; reflexivity.
Qed.

(** reverse_mapping lists the members of each cluster *)
Definition rev_ok (n : nat) (mapping : list nat) (rev : list (list nat)) : Prop :=
  forall p, p < length rev -> nth p rev [] = filter (fun v => nth v mapping 0 =? p) (seq 0 n).

(** simple graphs: one positive entry per neighbour *)
Definition simple (g : graph) : Prop :=
  forall u, NoDup (map fst (nth u g [])) /\ forall v w, In (v, w) (nth u g []) -> (0 < w)%N.

Lemma contract_ok ord G mapping rev : perm_ord ord -> undirected G -> length mapping = length G ->
  (forall v, v < length G -> nth v mapping 0 < length rev) -> rev_ok (length G) mapping rev ->
  exists H, contract ord G mapping rev = Some H /\ length H = length rev /\
    contraction_of (length G) (wt G) (fun v => nth v mapping 0) (length H) (wt H) /\ undirected H /\ simple H.
Proof.
  intros Po [U1 U2] Lm Hm Rv. unfold contract.
  destruct (contract_rows_ok ord G mapping (length rev) Po) with (rev := rev) (p := 0) (ws := repeat 0%N (length rev))
    as [H [E [L Q]]].
  - intros u t w I. destruct (U1 u t w I) as [A _]. rewrite Lm. auto.
  - apply repeat_length.
  - intros ns v I J. destruct (In_nth rev ns [] I) as [p [Hp Ep]]. rewrite <- Ep, Rv in J by auto.
    apply filter_In in J. destruct J as [J _]. apply in_seq in J. lia.
  - exists H. split; [auto|]. split; [auto|].
    assert (C : contraction_of (length G) (wt G) (fun v => nth v mapping 0) (length H) (wt H)).
    { intros p q Hp Hq N. rewrite L in Hp, Hq. destruct (Q p Hp) as [_ [_ Q3]].
      unfold wt at 1. rewrite Q3 by auto. rewrite (toq_sum G mapping q (length G)) by (auto; intros u t w I; apply (U1 u t w I)).
      rewrite Rv, sumN_filter by auto. apply sumN_ext. intros u _. cbn beta.
      destruct (nth u mapping 0 =? p); cbn [andb]; [reflexivity|]. symmetry. apply bsum_zero. reflexivity. }
    split; [exact C|].
    assert (Out : forall u, length H <= u -> nth u H [] = []) by (intros; apply nth_overflow; auto).
    split; [split|].
    + intros u v w I. destruct (Nat.lt_ge_cases u (length H)) as [A|A]; [|rewrite Out in I by auto; contradiction].
      rewrite L in A. destruct (Q u A) as [_ [Q2 _]]. specialize (Q2 v w I). cbn [Nat.add] in Q2. rewrite L. tauto.
    + intros p q Hp Hq. destruct (Nat.eq_dec p q) as [->|N]; [auto|].
      rewrite !C by auto. rewrite bsum_swap. apply bsum_ext. intros u Hu. apply bsum_ext. intros v Hv.
      rewrite (U2 u v) by auto. rewrite andb_comm. reflexivity.
    + intro u. destruct (Nat.lt_ge_cases u (length H)) as [A|A]; [|rewrite Out by auto; split; [constructor|intros v w []]].
      rewrite L in A. destruct (Q u A) as [Q1 [Q2 _]]. split; [auto|]. intros v w I. apply (Q2 v w I).
Qed.

(** numbering the sets *)
Record ninv (n c : nat) (rt : nat -> nat) (k : nat) (part : list (option nat)) (cur : nat) (mapping : list nat)
    (rev : list (list nat)) (seen : list nat) : Prop := {
  ni_part : length part = n;
  ni_map : length mapping = k;
  ni_rev : length rev = c;
  ni_k : forall v, v < k -> nth (rt v) part None = Some (nth v mapping 0);
  ni_lt : forall r p, nth r part None = Some p -> p < cur;
  ni_inj : forall r r' p, nth r part None = Some p -> nth r' part None = Some p -> r = r';
  ni_sur : forall p, p < cur -> exists v, v < k /\ nth v mapping 0 = p;
  ni_seen : forall r, In r seen <-> nth r part None <> None;
  ni_nd : NoDup seen;
  ni_cur : length seen = cur;
  ni_inc : forall r, In r seen -> r < n /\ rt r = r;
  ni_rv : forall p, p < c -> nth p rev [] = filter (fun v => nth v mapping 0 =? p) (seq 0 k) }.

Lemma number_sets_ok n ps c rt : 
  (forall seen, NoDup seen -> (forall r, In r seen -> r < n /\ rt r = r) -> length seen <= c) ->
  forall m k u part cur mapping rev seen, k + m = n -> inv n ps u -> (forall x, x < n -> Root (parent u) x (rt x)) ->
  ninv n c rt k part cur mapping rev seen ->
  exists mapping' rev' part' cur' seen', number_sets u part cur mapping rev (seq k m) = Some (mapping', rev') /\
    ninv n c rt n part' cur' mapping' rev' seen'.
Proof.
  intro Bnd. induction m as [|m IH]; intros k u part cur mapping rev seen Hk Iu Hrt J; cbn [seq number_sets].
  - assert (k = n) by lia. subst k. exists mapping, rev, part, cur, seen. auto.
  - assert (Kn : k < n) by lia.
    destruct (find_inv n ps u k Iu Kn) as [u' [r [-> [Iu' [_ [_ [Rr Same]]]]]]].
    assert (Er : r = rt k) by (eapply Root_fun; [exact Rr|apply Hrt; auto]).
    assert (Rn : r < n /\ rt r = r).
    { pose proof (Root_lt _ _ _ Rr) as [_ [A _]]. rewrite (inv_len _ _ _ Iu) in A. split; [auto|].
      eapply Root_fun; [apply Hrt; auto|eapply Root_idem; eauto]. }
    destruct J as [J1 J2 J3 J4 J5 J6 J7 J8 J9 J10 J11 J12].
    rewrite J1. replace (r <? n) with true by (symmetry; apply Nat.ltb_lt; tauto).
    assert (Go : forall part' cur' id seen', id < c ->
       ninv n c rt (S k) part' cur' (mapping ++ [id]) (upd rev id (nth id rev [] ++ [k])) seen' ->
       exists mapping' rev' part'' cur'' seen'', (if id <? length rev then
           number_sets u' part' cur' (mapping ++ [id]) (upd rev id (nth id rev [] ++ [k])) (seq (S k) m) else None)
           = Some (mapping', rev') /\ ninv n c rt n part'' cur'' mapping' rev' seen'').
    { intros part' cur' id seen' Hid J'. rewrite J3. replace (id <? c) with true by (symmetry; apply Nat.ltb_lt; auto).
      eapply IH; eauto; [lia|]. intros x Hx. apply Same, Hrt; auto. }
    assert (MA : forall id v, v < k -> nth v (mapping ++ [id]) 0 = nth v mapping 0) by (intros; apply app_nth1; lia).
    assert (MB : forall id, nth k (mapping ++ [id]) 0 = id).
    { intros id. rewrite app_nth2 by lia. rewrite J2, Nat.sub_diag. reflexivity. }
    assert (RV : forall id p, id < c -> p < c -> nth p (upd rev id (nth id rev [] ++ [k])) [] =
        filter (fun v => nth v (mapping ++ [id]) 0 =? p) (seq 0 (S k))).
    { intros id p Hid Hp. rewrite seq_S, filter_app. cbn [filter Nat.add]. rewrite MB, nth_upd, J3.
      replace (id <? c) with true by (symmetry; apply Nat.ltb_lt; auto). rewrite andb_true_r, (Nat.eqb_sym id p).
      assert (FE : filter (fun v => nth v (mapping ++ [id]) 0 =? p) (seq 0 k) = nth p rev []).
      { rewrite J12 by auto. apply filter_ext_in. intros v Hv. apply in_seq in Hv. rewrite MA by lia. reflexivity. }
      rewrite FE. destruct (Nat.eqb_spec p id) as [->|]; [reflexivity|]. symmetry. apply app_nil_r. }
    destruct (nth r part None) as [id|] eqn:Ep.
    + assert (Hid : id < cur) by eauto.
      assert (Hc : cur <= c) by (rewrite <- J10; apply Bnd; auto).
      apply (Go part cur id seen); [lia|]. constructor; auto.
      * rewrite app_length. simpl. lia.
      * rewrite upd_length. auto.
      * intros v Hv. destruct (Nat.eq_dec v k) as [->|]; [rewrite MB, <- Er; auto|]. rewrite MA by lia. apply J4. lia.
      * intros p Hp. destruct (J7 p Hp) as [v [Hv Ev]]. exists v. split; [lia|]. rewrite MA; auto.
      * intros p Hp. apply RV; [lia|auto].
    + assert (NS : ~ In r seen) by (rewrite J8; intro X; congruence).
      assert (Hc : S cur <= c).
      { rewrite <- J10. apply (Bnd (r :: seen)); [constructor; auto|]. intros x [<-|Hx]; auto. }
      assert (PA : forall x, nth x (upd part r (Some cur)) None = if x =? r then Some cur else nth x part None).
      { intro x. rewrite nth_upd, J1. replace (r <? n) with true by (symmetry; apply Nat.ltb_lt; tauto).
        rewrite andb_true_r. reflexivity. }
      apply (Go (upd part r (Some cur)) (S cur) cur (r :: seen)); [lia|]. constructor; auto.
      * rewrite upd_length. auto.
      * rewrite app_length. simpl. lia.
      * rewrite upd_length. auto.
      * intros v Hv. rewrite PA. destruct (Nat.eq_dec v k) as [->|].
        -- rewrite MB, <- Er, Nat.eqb_refl. reflexivity.
        -- rewrite MA by lia. assert (X := J4 v ltac:(lia)). destruct (Nat.eqb_spec (rt v) r) as [E|]; [|auto]. congruence.
      * intros x p. rewrite PA. destruct (x =? r); intro X; [injection X as <-; lia|]. specialize (J5 _ _ X). lia.
      * intros x x' p. rewrite !PA. destruct (Nat.eqb_spec x r), (Nat.eqb_spec x' r); intros X Y.
        -- congruence.
        -- injection X as <-. specialize (J5 _ _ Y). lia.
        -- injection Y as <-. specialize (J5 _ _ X). lia.
        -- eauto.
      * intros p Hp. destruct (Nat.eq_dec p cur) as [->|].
        -- exists k. split; [lia|]. apply MB.
        -- destruct (J7 p ltac:(lia)) as [v [Hv Ev]]. exists v. split; [lia|]. rewrite MA; auto.
      * intro x. rewrite PA. simpl. rewrite J8. destruct (Nat.eqb_spec x r) as [->|N].
        -- split; [discriminate|auto].
        -- split; [intros [X|X]; congruence|auto].
      * constructor; auto.
      * simpl. lia.
      * intros x [<-|Hx]; auto.
Qed.

Lemma from_uf_ok ord G ps u : perm_ord ord -> undirected G -> inv (length G) ps u ->
  exists H mapping, from_union_find ord G u = Some (H, mapping) /\ length mapping = length G /\ length H = cnt u /\
    (forall x y, x < length G -> y < length G -> (nth x mapping 0 = nth y mapping 0 <-> conn ps x y)) /\
    clustering (length G) (fun v => nth v mapping 0) (length H) /\
    contraction_of (length G) (wt G) (fun v => nth v mapping 0) (length H) (wt H) /\ undirected H /\ simple H.
Proof.
  intros Po U Iu. set (n := length G) in *.
  assert (RT : exists rt, forall x, x < n -> Root (parent u) x (rt x)).
  { pose proof (Root_total _ _ (inv_wf _ _ _ Iu)) as T. rewrite (inv_len _ _ _ Iu) in T.
    exists (fun x => match find_fuel (length (parent u)) (parent u) x with Some (_, r) => r | None => 0 end).
    intros x Hx. destruct (find_inv n ps u x Iu Hx) as [u' [r [E [_ [_ [_ [R _]]]]]]].
    unfold uf_find in E. destruct (find_fuel _ _ _) as [[p' r']|]; [|discriminate]. injection E as _ <-. exact R. }
  destruct RT as [rt Hrt].
  assert (Bnd : forall seen, NoDup seen -> (forall r, In r seen -> r < n /\ rt r = r) -> length seen <= cnt u).
  { intros seen ND HS. rewrite (inv_cnt _ _ _ Iu). unfold nroots. apply NoDup_incl_length; [auto|].
    intros r Hr. destruct (HS r Hr) as [A B]. apply filter_In. rewrite (inv_len _ _ _ Iu). split; [apply in_seq; lia|].
    apply Nat.eqb_eq. pose proof (Root_lt _ _ _ (Hrt r A)) as [_ [_ X]]. congruence. }
  assert (J0 : ninv n (cnt u) rt 0 (repeat None n) 0 [] (repeat [] (cnt u)) []).
  { assert (Z : forall r, nth r (repeat (@None nat) n) None = None).
    { intro r. destruct (Nat.lt_ge_cases r n); [apply nth_repeat_lt; auto|apply nth_overflow; rewrite repeat_length; auto]. }
    constructor.
    - apply repeat_length.
    - reflexivity.
    - apply repeat_length.
    - intros v Hv; lia.
    - intros r p; rewrite Z; discriminate.
    - intros r r' p; rewrite Z; discriminate.
    - intros p Hp; lia.
    - intro r; rewrite Z; simpl; split; [contradiction|congruence].
    - constructor.
    - reflexivity.
    - intros r [].
    - intros p Hp. apply nth_repeat_lt. auto. }
  destruct (number_sets_ok n ps (cnt u) rt Bnd n 0 u _ _ _ _ _ eq_refl Iu Hrt J0)
    as [mapping [rev [part [cur [seen [E J]]]]]].
  destruct J as [J1 J2 J3 J4 J5 J6 J7 J8 J9 J10 J11 J12].
  assert (Cur : cur = cnt u).
  { apply Nat.le_antisymm; [rewrite <- J10; apply Bnd; auto|].
    rewrite (inv_cnt _ _ _ Iu), <- J10. unfold nroots. apply NoDup_incl_length; [apply NoDup_filter, seq_NoDup|].
    intros r Hr. apply filter_In in Hr. rewrite (inv_len _ _ _ Iu) in Hr. destruct Hr as [A B].
    apply in_seq in A. apply Nat.eqb_eq in B. apply J8.
    assert (X : rt r = r). { eapply Root_fun; [apply Hrt; lia|]. constructor; [rewrite (inv_len _ _ _ Iu); lia|auto]. }
    rewrite <- X, (J4 r) by lia. discriminate. }
  unfold from_union_find. fold n. unfold uf_n. rewrite E.
  destruct (contract_ok ord G mapping rev Po U) as [H [EH [LH [C [UH SH]]]]].
  - auto.
  - intros v Hv. rewrite J3, <- Cur. eapply J5. apply J4. auto.
  - intros p Hp. apply J12. lia.
  - rewrite EH. exists H, mapping. split; [reflexivity|]. split; [auto|]. split; [congruence|]. split; [|split; [|auto]].
    + intros x y Hx Hy. rewrite <- (conn_root_iff n ps u x y _ _ Iu Hx Hy (Hrt x Hx) (Hrt y Hy)). split.
      * intro Q. eapply J6; [apply J4; auto|]. rewrite Q. apply J4. auto.
      * intro Q. assert (X := J4 x Hx). rewrite Q, (J4 y Hy) in X. congruence.
    + rewrite LH, J3. split; [|rewrite <- Cur; auto].
      intros v Hv. rewrite <- Cur. eapply J5. apply J4. auto.
Qed.

(** the construction calls build exactly these rows *)
Lemma req_edges_app a b : req_edges (a ++ b) = req_edges a ++ req_edges b.
Proof. induction a as [|[|s t w] a IH]; simpl; [auto|auto|f_equal; auto]. Qed.

Lemma req_edges_row p row : req_edges (map (fun e => BEdge p (fst e) (snd e)) row) = map (fun e => (p, e)) row.
Proof. induction row as [|[t w] row IH]; simpl; [auto|f_equal; auto]. Qed.

Lemma req_edges_script rows : forall ps,
  req_edges (flat_map (fun p => BNode :: map (fun e => BEdge p (fst e) (snd e)) (nth p rows [])) ps)
  = flat_map (fun p => map (fun e => (p, e)) (nth p rows [])) ps.
Proof.
  induction ps as [|p ps IH]; [reflexivity|]. cbn [flat_map]. rewrite req_edges_app. cbn [req_edges].
  rewrite req_edges_row, IH. reflexivity.
Qed.

Lemma script_legal rows : (forall u v w, In (v, w) (nth u rows []) -> v < length rows /\ v <> u) ->
  legal (length rows) (script_of rows).
Proof.
  intro H. unfold script_of. split; [|split].
  - unfold req_nodes. rewrite <- (seq_length (length rows) 0) at 2. generalize (seq 0 (length rows)) as ps.
    induction ps as [|p ps IH]; [reflexivity|]. cbn [flat_map app filter]. rewrite filter_app.
    assert (Z : filter (fun o => match o with BNode => true | BEdge _ _ _ => false end)
                  (map (fun e : nat * N => BEdge p (fst e) (snd e)) (nth p rows [])) = []).
    { induction (nth p rows []) as [|e l IHl]; simpl; auto. }
    rewrite Z. simpl. f_equal. exact IH.
  - rewrite req_edges_script. clear H. generalize 0. induction (length rows) as [|m IH]; intro s; [constructor|].
    cbn [seq flat_map]. rewrite map_app, map_map. cbn [fst].
    assert (B : forall x, In x (map fst (flat_map (fun p => map (fun e => (p, e)) (nth p rows [])) (seq (S s) m))) -> s <= x).
    { intros x Hx. apply in_map_iff in Hx. destruct Hx as [y [<- Hy]]. apply in_flat_map in Hy.
      destruct Hy as [p [Hp Hy]]. apply in_map_iff in Hy. destruct Hy as [e [<- _]]. apply in_seq in Hp. simpl. lia. }
    specialize (IH (S s)). induction (nth s rows []) as [|e l IHl]; [exact IH|]. cbn [map app]. constructor; [exact IHl|].
    rewrite Forall_forall. intros x Hx. apply in_app_or in Hx. destruct Hx as [Hx|Hx]; [|auto].
    apply in_map_iff in Hx. destruct Hx as [_ [<- _]]. auto.
  - intros s t w I. rewrite req_edges_script in I. apply in_flat_map in I. destruct I as [p [Hp I]].
    apply in_map_iff in I. destruct I as [[t' w'] [E I]]. injection E as <- <- <-. apply in_seq in Hp.
    destruct (H p t' w' I). lia.
Qed.

Lemma script_adj rows v : (forall u v w, In (v, w) (nth u rows []) -> v < length rows /\ v <> u) -> v < length rows ->
  req_adj (script_of rows) v = nth v rows [].
Proof.
  intros H Hv. unfold req_adj, script_of. rewrite req_edges_script.
  assert (G : forall ps, NoDup ps -> 
    map snd (filter (fun e => (fst e =? v) && negb (fst (snd e) =? v)) (flat_map (fun p => map (fun e => (p, e)) (nth p rows [])) ps))
    = if existsb (Nat.eqb v) ps then nth v rows [] else []).
  { induction ps as [|p ps IH]; intro ND; [reflexivity|]. inversion ND as [|? ? N1 N2]; subst.
    cbn [flat_map existsb]. rewrite filter_app, map_app, (IH N2).
    destruct (Nat.eqb_spec v p) as [E|E].
    - subst p. replace (existsb (Nat.eqb v) ps) with false.
      + cbn [orb]. rewrite app_nil_r. clear IH. specialize (H v). induction (nth v rows []) as [|[t w] l IHl]; [reflexivity|].
        cbn [map filter fst snd]. rewrite Nat.eqb_refl. destruct (Nat.eqb_spec t v) as [E|E].
        * destruct (H t w (or_introl eq_refl)). contradiction.
        * cbn [andb negb map snd]. f_equal. apply IHl. intros. eapply H. right. eauto.
      + symmetry. apply existsb_false. intros x Hx. apply Nat.eqb_neq. intros ->. contradiction.
    - cbn [orb]. assert (Z : filter (fun e => (fst e =? v) && negb (fst (snd e) =? v)) (map (fun e : nat * N => (p, e)) (nth p rows [])) = []).
      { induction (nth p rows []) as [|e l IHl]; [reflexivity|]. cbn [map filter fst snd].
        destruct (Nat.eqb_spec p v); [congruence|]. exact IHl. }
      rewrite Z. reflexivity. }
  rewrite G by apply seq_NoDup. replace (existsb (Nat.eqb v) (seq 0 (length rows))) with true; [auto|].
  symmetry. apply existsb_exists. exists v. split; [apply in_seq; lia|apply Nat.eqb_refl].
Qed.

Lemma build_rows m rows : (forall u v w, In (v, w) (nth u rows []) -> v < length rows /\ v <> u) ->
  exists g, build (length rows) m (script_of rows) = Some g /\ adj_of g = rows.
Proof.
  intro H. pose proof (script_legal rows H) as L. destruct (build_ok (length rows) m _ L) as [g [B [F _]]].
  exists g. split; [auto|]. unfold adj_of. assert (N : num_nodes g = length rows) by (unfold num_nodes; rewrite (gf_len _ _ _ F); lia).
  rewrite N. apply nth_ext_in with []; [rewrite map_length, seq_length; auto|].
  intros i Hi. rewrite map_length, seq_length in Hi.
  rewrite (nth_indep _ [] (edges_of g 0)) by (rewrite map_length, seq_length; auto).
  rewrite map_nth, seq_nth by auto. cbn [Nat.add].
  rewrite (edges_of_ok _ _ g i F) by (auto; apply ss_filter, L). rewrite <- req_adj_eq. apply script_adj; auto.
Qed.
