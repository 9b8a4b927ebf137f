(* P_Balanced4.v - the cut of the depth first search is a most balanced one, and marking it. *)
From Verif Require Import SpecCut P_Cut SpecMutable SpecCactus M_Balanced P_Mutable P_MutableIO P_Balanced P_Balanced2 P_Balanced3 P_Dynamic P_Dynamic3 P_LocalSearch P_IsoFlow2.

Section Best.
Context (cond : bool) (G C : mg) (c : N) (start : nat).
Notation T := (total_weight cond G C).
Notation vw := (vertex_weight cond G C).
Notation R := (m_rows C).
Notation n := (m_n C).
Notation W := (wt (adj (m_rows C))).
Context (VR : valid_rows R) (SR : no_parallel R) (NZ : forall v t w r, In (t, w, r) (nth v R []) -> w <> 0%N)
        (HT : sumN vw (seq 0 n) = T) (T0 : (0 < T)%N) (Hs : start < n) (c0 : (0 < c)%N) (Ca : cactus n W c).

Lemma ew_W x u w : edgew C x u w -> W x u = w.
Proof. intros (r & I). symmetry. apply (edge_simple R x u w r SR I). Qed.
Lemma W_ew x u : W x u <> 0%N -> edgew C x u (W x u).
Proof. intro H. destruct (wt_in R x u H) as (w & r & I). exists r. rewrite <- (edge_simple R x u w r SR I). exact I. Qed.
Lemma ew_nz x u w : edgew C x u w -> w <> 0%N.
Proof. intros (r & I). apply (NZ x u w r I). Qed.

Section Done.
Context (st : dst) (D : dfs_done cond G C c start st).
Lemma all_fin x : x < n -> fin st x.
Proof.
  pose proof (d_sinv _ _ _ _ _ _ D) as SI. assert (DF : forall y, disc st y -> fin st y).
  { intros y Q. apply disc_cases in Q as [Q|Q]; [|exact Q]. apply (i_stk _ _ _ _ _ _ SI) in Q. destruct Q. }
  intro Hx. apply DF. set (f := fun y => match stt st y with Undiscovered => false | _ => true end).
  assert (Fd : forall y, f y = true <-> disc st y). { intro y. unfold f, disc. destruct (stt st y); split; congruence. }
  apply Fd. destruct (f x) eqn:Fx; [reflexivity|]. exfalso.
  assert (Pf : proper n f) by (split; [exists start; split; [exact Hs|]; apply Fd; apply fin_disc; apply (d_start _ _ _ _ _ _ D)|exists x; auto]).
  apply (ca_connected _ _ _ Ca f Pf). apply N.le_0_r. etransitivity; [apply (cutw_le n W f [])|reflexivity]. intros [a b] (A & B & F1 & F2 & F3). cbn [fst snd] in *.
  apply Fd in F1. apply DF in F1. assert (E : edge C a b) by (exists (W a b); apply W_ew; exact F3). destruct (i_edge _ _ _ _ _ _ SI a b F1 E) as [Q _]. apply Fd in Q. congruence.
Qed.
Notation p := (pf st).
Notation sub := (subn st).
Let SI : sinv cond G C start st [] := d_sinv _ _ _ _ _ _ D.
Lemma f_sym : symm n W. Proof. apply valid_symm. exact VR. Qed.
Lemma f_root : p start = None. Proof. apply (i_root _ _ _ _ _ _ SI). Qed.
Lemma f_anc x : x < n -> anc p x start. Proof. intro H. apply (i_anc _ _ _ _ _ _ SI). apply fin_disc. apply all_fin. exact H. Qed.
Lemma f_par x y : p x = Some y -> x < n /\ y < n /\ x <> y /\ W x y <> 0%N.
Proof.
  intro E. destruct (i_par _ _ _ _ _ _ SI x y E) as (_ & _ & (w & Ew)). apply (edgew_sym C VR) in Ew as (Ew & A & B & N). repeat split; auto. rewrite (ew_W x y w Ew). apply (ew_nz x y w Ew).
Qed.
Lemma f_edge x y : x < n -> y < n -> W x y <> 0%N -> anc p x y \/ anc p y x.
Proof. intros A B H. apply (i_edge _ _ _ _ _ _ SI x y); [apply all_fin; exact A|]. exists (W x y). apply W_ew. exact H. Qed.
Lemma f_loop x : x < n -> W x x = 0%N. Proof. intros _. apply wt_self. exact VR. Qed.
Lemma f_sub x : x < n -> exists L, NoDup L /\ (forall y, In y L <-> anc p y x) /\ sub x = sumN vw L.
Proof. intro H. destruct (i_sub _ _ _ _ _ _ SI x (all_fin x H)) as (L & [Nd HL] & E). exists L. split; [exact Nd|]. split; [exact HL|]. unfold subn. rewrite E. reflexivity. Qed.
Notation back' := (back n W p).
Lemma f_out x u : back' x u <-> In x (out st u).
Proof.
  split.
  - intros (A & B & N & Wn & An & Pn). apply (i_out _ _ _ _ _ _ SI x u); auto; [apply all_fin; exact A|]. exists (W x u). apply W_ew. exact Wn.
  - intro I. destruct (i_out' _ _ _ _ _ _ SI x u I) as ((w & Ew) & An & Pn & _). pose proof Ew as Ew'. apply (edgew_sym C VR) in Ew' as (_ & A & B & N). repeat split; auto. rewrite (ew_W x u w Ew). apply (ew_nz x u w Ew).
Qed.
Lemma f_okcyc x u l : back' x u -> path p x u (x :: l) -> ok_cyc st x u l.
Proof. intros Bk P. split; [apply f_out; exact Bk|]. split; [exact P|]. intros y I _. apply all_fin. apply (fd_lt n W p f_par x u l Bk P y I). Qed.

Lemma best_max f : proper n f -> cutw n W f = c -> (light T (wsum n vw f) <= b_w (s_best st))%N.
Proof.
  pose proof (d_binv _ _ _ _ _ _ D) as BI. apply (complete_cut n W c T vw p start sub f_sym Hs f_root f_anc f_par f_edge f_loop f_sub HT c0 Ca).
  - intros x px E Wc. destruct (f_par x px E) as (A & B & _ & Nz). apply (i_tree _ _ _ _ _ BI px x); [apply all_fin; exact B|exact E| |apply (subn_sf _ _ _ _ _ _ _ SI); apply all_fin; exact A].
    rewrite <- Wc. apply W_ew. rewrite (f_sym px x) by auto. exact Nz.
  - intros x u l Bk P i m Hi Hm. apply (i_arcs _ _ _ _ _ BI u x l); auto; [apply all_fin; apply Bk|apply f_okcyc; auto].
Qed.

Definition ends (b : best) (n1 e1 n2 e2 : nat) : Prop :=
  exists f r1 r2 h1 h2, slot R n1 e1 = Some (r1, fst h1, snd h1) /\ slot R n2 e2 = Some (r2, fst h2, snd h2) /\
    cut_by n W f n1 r1 n2 r2 /\ cutw n W f = c /\ light T (wsum n vw f) = b_w b.

Lemma edge_index_ok row t w r : In (t, w, r) row -> forall e o, exists k w' r', edge_index row t e o = e + k /\ nth_error row k = Some (t, w', r').
Proof.
  induction row as [|[[x w0] r0] row IH]; intros I e o; [destruct I|]. cbn [edge_index]. destruct (Nat.eqb_spec x t) as [->|N].
  - exists 0, w0, r0. split; [lia|reflexivity].
  - destruct I as [E|I]; [congruence|]. destruct (IH I (S e) o) as (k & w' & r' & A & B). exists (S k), w', r'. split; [rewrite A; lia|exact B].
Qed.

Lemma best_ok : (0 < b_w (s_best st))%N -> let b := s_best st in
  exists n1 e1 n2 e2, (if b_cyc b then match slot R (b_n2 b) (b_e2 b) with Some (t, _, r) => Some (b_n b, b_e b, t, r, true, b_w b) | None => None end
                       else Some (b_n b, b_e b, b_n b, b_e b, false, b_w b)) = Some (n1, e1, n2, e2, b_cyc b, b_w b) /\ ends b n1 e1 n2 e2.
Proof.
  intros Hb b. pose proof (i_from _ _ _ _ _ (d_binv _ _ _ _ _ _ D)) as Fr. change (s_best st) with b in Fr, Hb. clearbody b. destruct Fr as [Z|[(Bc & t & r & wt0 & Sl & Pt & Ft & St & Bw)|(x & u & l & i & m & (Io & P & _) & Hm & (Bc & Bw & E1 & (o1 & E2) & E3 & (o2 & E4)))]].
  - rewrite Z in Hb. clear - Hb. lia.
  - rewrite Bc. exists (b_n b), (b_e b), (b_n b), (b_e b). split; [reflexivity|].
    assert (Wc : W (b_n b) t = c). { apply ew_W. exists r. eapply nth_error_In. exact Sl. }
    destruct (tree_cut n W c T vw p start sub f_sym Hs f_root f_anc f_par f_edge f_loop f_sub HT c0 Ca t (b_n b) Pt Wc) as (f & A & B & E).
    exists f, t, t, (c, r), (c, r). split; [exact Sl|]. split; [exact Sl|]. split; [exact A|]. split; [exact B|]. rewrite E, Bw. unfold subn. rewrite St. reflexivity.
  - apply f_out in Io. unfold cy in *. rewrite cycl_len in E1, E3. rewrite cverb_cv in E1, E2, E3, E4.
    assert (Hm' : 0 < m < S (length l)).
    { split.
      - destruct m as [|m]; [|lia]. exfalso. rewrite Bw in Hb. unfold arc, bsum, light in Hb. cbn in Hb. clear - Hb. lia.
      - destruct (Nat.eq_dec m (S (length l))) as [->|]; [|lia]. exfalso. rewrite Bw in Hb. rewrite <- (cycl_len T sub x l), arc_full in Hb by discriminate. unfold psum in Hb. rewrite cycl_len in Hb.
        rewrite (cyc_total n W c T vw p start sub Hs f_root f_anc f_par f_edge f_loop f_sub HT c0 x u l Io P) in Hb. unfold light in Hb. clear - Hb. lia. }
    destruct (arc_cut n W c T vw p start sub f_sym Hs f_root f_anc f_par f_edge f_loop f_sub HT c0 Ca x u l Io P i m Hm') as (f & A & B & E).
    pose proof (fd_cycle n W c T vw p start sub f_sym Hs f_root f_anc f_par f_edge f_loop f_sub HT c0 x u l Io P) as (_ & _ & Cy).
    assert (Ne : x :: l <> []) by discriminate.
    assert (X1 : W (cv (x :: l) (i + m + S (length l) - 1)) (cv (x :: l) (i + m)) <> 0%N).
    { pose proof (proj2 (Cy (i + m + S (length l) - 1))) as Q. replace (S (i + m + S (length l) - 1)) with (i + m + length (x :: l)) in Q by (cbn [length]; lia). rewrite cv_add in Q by exact Ne. exact Q. }
    assert (X2 : W (cv (x :: l) (i + S (length l) - 1)) (cv (x :: l) i) <> 0%N).
    { pose proof (proj2 (Cy (i + S (length l) - 1))) as Q. replace (S (i + S (length l) - 1)) with (i + length (x :: l)) in Q by (cbn [length]; lia). rewrite cv_add in Q by exact Ne. exact Q. }
    rewrite <- E1 in X1, A. rewrite <- E3 in X2, A.
    destruct (W_ew _ _ X1) as (h1 & I1). destruct (W_ew _ _ X2) as (h2 & I2).
    destruct (edge_index_ok _ _ _ _ I1 0 o1) as (k1 & w1 & r1 & K1 & S1). destruct (edge_index_ok _ _ _ _ I2 0 o2) as (k2 & w2 & r2 & K2 & S2).
    rewrite Nat.add_0_l in K1, K2. rewrite <- E2 in K1. rewrite <- E4 in K2. rewrite Bc.
    assert (Sl : slot R (b_n2 b) (b_e2 b) = Some (cv (x :: l) i, w2, r2)) by (unfold slot; rewrite K2; exact S2). rewrite Sl.
    exists (b_n b), (b_e b), (cv (x :: l) i), r2. split; [reflexivity|].
    exists f, (cv (x :: l) (i + m)), (b_n2 b), (w1, r1), (w2, k2). cbn [fst snd]. split; [unfold slot; rewrite K1; exact S1|]. split; [apply (VR _ _ _ _ _ S2)|]. split; [exact A|]. split; [exact B|]. rewrite E, Bw. reflexivity.
Qed.
End Done.

(** *** marking *)
Lemma nth_upd' {A} (l : list A) i (x d : A) j : i < length l -> nth j (upd l i x) d = if j =? i then x else nth j l d.
Proof. intro H. destruct (Nat.eqb_spec j i) as [->|N]; [apply nth_upd_eq; exact H|apply nth_upd_neq; exact N]. Qed.
Lemma bfs_row_ok : forall row q chk, (forall t w r, In (t, w, r) row -> t < length chk) ->
  exists ad, fst (bfs_row row q chk) = q ++ ad /\ length (snd (bfs_row row q chk)) = length chk /\ NoDup ad /\
    (forall t, In t ad -> nth t chk false = false /\ exists w r, In (t, w, r) row) /\
    (forall t, nth t (snd (bfs_row row q chk)) false = true <-> nth t chk false = true \/ In t ad) /\
    (forall t w r, In (t, w, r) row -> nth t (snd (bfs_row row q chk)) false = true).
Proof.
  induction row as [|[[t w] r] row IH]; intros q chk H; cbn [bfs_row].
  - exists []. cbn. rewrite app_nil_r. split; [reflexivity|]. split; [reflexivity|]. split; [constructor|]. split; [intros t []|]. split; [tauto|intros t w r []].
  - assert (Ht : t < length chk) by (apply (H t w r); left; reflexivity). destruct (nth t chk false) eqn:E.
    + destruct (IH q chk) as (ad & A1 & A2 & A3 & A4 & A5 & A6); [intros t' w' r' I; apply (H t' w' r'); right; exact I|]. exists ad. split; [exact A1|]. split; [exact A2|]. split; [exact A3|]. split; [|split; [exact A5|]].
      * intros t' I. destruct (A4 t' I) as (B1 & w' & r' & B2). split; [exact B1|]. exists w', r'. right. exact B2.
      * intros t' w' r' [Q|I]; [injection Q as -> -> ->; apply A5; left; exact E|apply (A6 t' w' r' I)].
    + destruct (IH (q ++ [t]) (upd chk t true)) as (ad & A1 & A2 & A3 & A4 & A5 & A6); [intros t' w' r' I; rewrite upd_length; apply (H t' w' r'); right; exact I|].
      exists (t :: ad). rewrite A1, <- app_assoc. split; [reflexivity|]. rewrite A2, upd_length. split; [reflexivity|].
      assert (NI : ~ In t ad). { intro I. apply A4 in I as [Q _]. rewrite nth_upd' in Q by exact Ht. rewrite Nat.eqb_refl in Q. discriminate Q. }
      split; [constructor; auto|]. split; [|split].
      * intros t' [<-|I]; [split; [exact E|]; exists w, r; left; reflexivity|]. destruct (A4 t' I) as (B1 & w' & r' & B2). rewrite nth_upd' in B1 by exact Ht. destruct (Nat.eqb_spec t' t) as [Q|Q]; [discriminate B1|]. split; [exact B1|]. exists w', r'. right. exact B2.
      * intro t'. rewrite A5, nth_upd' by exact Ht. destruct (Nat.eqb_spec t' t) as [Q|Q]; [subst t'; cbn; tauto|]. cbn. split; [intros [B|B]; auto|intros [B|[B|B]]; auto; congruence].
      * intros t' w' r' [Q|I]; [injection Q as -> -> ->; apply A5; left; rewrite nth_upd' by exact Ht; rewrite Nat.eqb_refl; reflexivity|apply (A6 t' w' r' I)].
Qed.
Lemma mark_all l : forall inc v, (forall y, In y l -> y < length inc) -> length (fold_left (fun i y => upd i y true) l inc) = length inc /\
  (nth v (fold_left (fun i y => upd i y true) l inc) false = true <-> nth v inc false = true \/ In v l).
Proof.
  induction l as [|y l IH]; intros inc v H; cbn [fold_left]; [split; [reflexivity|cbn; tauto]|].
  destruct (IH (upd inc y true) v) as [A B]; [intros z I; rewrite upd_length; apply H; right; exact I|]. rewrite upd_length in A. split; [exact A|]. rewrite B, nth_upd' by (apply H; left; reflexivity).
  destruct (Nat.eqb_spec v y) as [->|N]; cbn; [tauto|]. split; [intros [Q|Q]; auto|intros [Q|[Q|Q]]; auto; congruence].
Qed.

Context (pos : list nat) (Hgr : groups_exact n (m_cont C) pos) (Hpl : length pos = m_n G) (Hpos : forall v, v < m_n G -> nth v pos 0 < n).
Section Mark.
Context (f : nat -> bool) (n1 r1 n2 r2 : nat) (Cb : cut_by n W f n1 r1 n2 r2).
Record minv (P q : list nat) (chk inc : list bool) : Prop := mk_minv {
  m1 : length chk = n /\ length inc = m_n G;
  m2 : NoDup (P ++ q);
  m3 : forall x, In x (P ++ q) -> x < n /\ f x = true;
  m4 : forall x, nth x chk false = true <-> In x (P ++ q) \/ x = r1 \/ x = r2;
  m5 : forall a b w r, In a P -> In (b, w, r) (nth a R []) -> nth b chk false = true;
  m6 : In n1 (P ++ q) /\ In n2 (P ++ q);
  m7 : forall v, nth v inc false = true <-> exists x, In x P /\ In v (nth x (m_cont C) [])
}.
Lemma cont_lt x v : x < n -> In v (nth x (m_cont C) []) -> v < m_n G /\ nth v pos 0 = x.
Proof. intros Hx I. apply (proj2 Hgr x v Hx) in I. rewrite Hpl in I. exact I. Qed.
Lemma bfs_cut_ok : forall fuel P q chk inc, minv P q chk inc -> n <= fuel + length P -> exists inc', bfs_cut C fuel q chk inc = Some inc' /\ length inc' = m_n G /\ forall v, v < m_n G -> nth v inc' false = f (nth v pos 0).
Proof.
  induction fuel as [|fuel IH]; intros P q chk inc M Hfu; destruct q as [|x q].
  1, 3: (exists inc; split; [reflexivity|]; destruct M as [[M1 M1'] M2 M3 M4 M5 M6 M7]; rewrite app_nil_r in *; split; [exact M1'|]; intros v Hv;
    assert (AllP : forall z, z < n -> f z = true -> In z P);
    [intros z Hz Fz; destruct (in_dec Nat.eq_dec z P) as [I|NI]; [exact I|]; exfalso; set (h := fun y => f y && negb (existsb (Nat.eqb y) P));
     assert (Hh : forall y, h y = true <-> f y = true /\ ~ In y P);
     [intro y; unfold h; rewrite andb_true_iff, negb_true_iff; split; intros [Q1 Q2]; (split; [exact Q1|]);
        [intro I; rewrite (proj2 (existsb_exists _ _)) in Q2; [discriminate Q2|exists y; split; [exact I|apply Nat.eqb_refl]]
        |destruct (existsb (Nat.eqb y) P) eqn:E; [exfalso; apply Q2; apply existsb_exists in E as (y' & I & E); apply Nat.eqb_eq in E; subst y'; exact I|reflexivity]]|];
     assert (Pr : proper n h) by (split; [exists z; split; [exact Hz|apply Hh; auto]|exists n1; split; [apply Cb|destruct (h n1) eqn:E; [apply Hh in E as [_ E]; destruct (E (proj1 M6))|reflexivity]]]);
     apply (ca_connected _ _ _ Ca h Pr); apply N.le_0_r; etransitivity; [apply (cutw_le n W h [])|reflexivity];
     intros [a b] (A & B & F1 & F2 & F3); cbn [fst snd] in *; exfalso; apply Hh in F1 as [F1 F1'];
     destruct (f b) eqn:Fb;
     [assert (Ib : In b P) by (destruct (in_dec Nat.eq_dec b P) as [I|NI']; [exact I|]; assert (X : h b = true) by (apply Hh; auto); congruence);
      assert (Wba : W b a <> 0%N) by (rewrite (valid_symm R VR b a) by auto; exact F3); destruct (W_ew b a Wba) as (r & I);
      pose proof (M5 b a _ r Ib I) as Q; apply M4 in Q as [Q|[Q|Q]]; [contradiction| |]; subst a; destruct Cb as (_ & _ & _ & _ & _ & _ & Z1 & Z2 & _); congruence
     |assert (X : crossing n W f (a, b)) by (repeat split; auto); apply Cb in X as [[-> _]|[-> _]]; apply F1'; apply M6]
    |];
    pose proof (Hpos v Hv) as Lp; destruct (f (nth v pos 0)) eqn:Fv;
    [apply M7; exists (nth v pos 0); split; [apply AllP; auto|]; apply (proj2 Hgr _ v Lp); rewrite Hpl; auto
    |destruct (nth v inc false) eqn:E; [|reflexivity]; apply M7 in E as (x & Ix & Iv); destruct (M3 x Ix) as [Lx Fx]; destruct (cont_lt x v Lx Iv) as [_ Q]; congruence]).
  - exfalso. destruct M as [_ M2 M3 _ _ _ _]. assert (L : length (P ++ x :: q) <= length (seq 0 n)) by (apply NoDup_incl_length; [exact M2|intros y I; apply in_seq; apply M3 in I; lia]). rewrite app_length, seq_length in L. cbn in L, Hfu. lia.
  - cbn [bfs_cut]. set (inc2 := fold_left (fun i v => upd i v true) (nth x (m_cont C) []) inc). destruct M as [[M1 M1'] M2 M3 M4 M5 M6 M7].
    assert (Ix : In x (P ++ x :: q)) by (apply in_or_app; right; left; reflexivity). destruct (M3 x Ix) as [Lx Fx].
    assert (Row : forall t w r, In (t, w, r) (nth x R []) -> t < length chk). { intros t w r I. rewrite M1. apply In_nth_error in I as (e & I). apply (VR x e t w r I). }
    destruct (bfs_row_ok (nth x R []) q chk Row) as (ad & A1 & A2 & A3 & A4 & A5 & A6). destruct (bfs_row (nth x R []) q chk) as [q2 chk2]. cbn [fst snd] in *. subst q2.
    assert (Cn : forall y, In y (nth x (m_cont C) []) -> y < length inc) by (intros y I; rewrite M1'; apply (cont_lt x y Lx I)).
    assert (Fa : forall t, In t ad -> t < n /\ f t = true).
    { intros t I. destruct (A4 t I) as (B1 & w & r & B2). assert (Lt : t < n) by (rewrite <- M1; apply (Row t w r B2)). split; [exact Lt|]. destruct (f t) eqn:Ft; [reflexivity|]. exfalso.
      assert (X : crossing n W f (x, t)). { repeat split; auto. cbn. rewrite (ew_W x t w); [apply (NZ x t w r B2)|exists r; exact B2]. }
      apply Cb in X. assert (Q : nth t chk false = true) by (apply M4; tauto). congruence. }
    apply (IH (P ++ [x]) (q ++ ad) chk2 inc2); [|rewrite app_length; cbn; cbn in Hfu; lia].
    assert (Eq : forall l, (P ++ [x]) ++ q ++ l = (P ++ x :: q) ++ l) by (intro l; rewrite <- !app_assoc; reflexivity).
    constructor.
    + split; [congruence|]. unfold inc2. rewrite (proj1 (mark_all _ inc 0 Cn)). exact M1'.
    + rewrite Eq. apply NoDup_app_in; [exact M2|exact A3|]. intros y I1 I2. destruct (A4 y I2) as [B1 _]. assert (nth y chk false = true) by (apply M4; left; exact I1). congruence.
    + intros y I. rewrite Eq in I. apply in_app_or in I as [I|I]; [apply M3; exact I|apply Fa; exact I].
    + intro y. rewrite A5, M4, Eq, (in_app_iff (P ++ x :: q)). tauto.
    + intros a b w r I J. apply in_app_or in I as [I|[<-|[]]]; [apply A5; left; apply (M5 a b w r I J)|apply (A6 b w r J)].
    + rewrite Eq. split; apply in_or_app; left; apply M6.
    + intro v. unfold inc2. rewrite (proj2 (mark_all _ inc v Cn)), M7. split.
      * intros [(y & I & J)|I]; [exists y; split; [apply in_or_app; left; exact I|exact J]|exists x; split; [apply in_or_app; right; left; reflexivity|exact I]].
      * intros (y & I & J). apply in_app_or in I as [I|[<-|[]]]; [left; exists y; auto|right; exact J].
Qed.
Lemma mark_ok' e1 e2 h1 h2 : slot R n1 e1 = Some (r1, fst h1, snd h1) -> slot R n2 e2 = Some (r2, fst h2, snd h2) ->
  exists inc, mark_cut G C n1 e1 n2 e2 = Some (inc, cut_edges G inc) /\ length inc = m_n G /\ forall v, v < m_n G -> nth v inc false = f (nth v pos 0).
Proof.
  intros S1 S2. unfold mark_cut. rewrite S1, S2. destruct h1 as [w1 h1], h2 as [w2 h2]. cbn [fst snd] in *. pose proof Cb as (L1 & L2 & L3 & L4 & F1 & F2 & F3 & F4 & _).
  assert (Rp : forall y, nth y (repeat false n) false = false) by (intro y; rewrite nth_repeat'; destruct (y <? n); reflexivity).
  assert (Rg : forall y, nth y (repeat false (m_n G)) false = false) by (intro y; rewrite nth_repeat'; destruct (y <? m_n G); reflexivity).
  destruct (Nat.eqb_spec n1 n2) as [E|E].
  - destruct (bfs_cut_ok n [] [n1] (upd (upd (upd (repeat false n) n1 true) r1 true) r2 true) (repeat false (m_n G))) as (inc & A & B); [|lia|].
    + constructor; cbn [app].
      * rewrite !upd_length, !repeat_length. auto.
      * constructor; [intros []|constructor].
      * intros x [<-|[]]. auto.
      * intro x. rewrite !nth_upd' by (rewrite ?upd_length, repeat_length; auto). rewrite Rp. destruct (Nat.eqb_spec x r2) as [Q|Q]; [tauto|]. destruct (Nat.eqb_spec x r1) as [Q'|Q']; [tauto|]. destruct (Nat.eqb_spec x n1) as [Q2|Q2]; [split; [intros _; left; left; congruence|auto]|]. split; [intro X; discriminate X|intros [[X|[]]|[X|X]]; congruence].
      * intros a b w r [].
      * split; [left; reflexivity|left; exact E].
      * intro v. rewrite Rg. split; [intro X; discriminate X|intros (x & [] & _)].
    + rewrite A. exists inc. split; [reflexivity|exact B].
  - destruct (bfs_cut_ok n [] [n1; n2] (upd (upd (upd (upd (repeat false n) n1 true) n2 true) r1 true) r2 true) (repeat false (m_n G))) as (inc & A & B); [|lia|].
    + constructor; cbn [app].
      * rewrite !upd_length, !repeat_length. auto.
      * constructor; [intros [Q|[]]; congruence|constructor; [intros []|constructor]].
      * intros x [<-|[<-|[]]]; auto.
      * intro x. rewrite !nth_upd' by (rewrite ?upd_length, repeat_length; auto). rewrite Rp. destruct (Nat.eqb_spec x r2) as [Q|Q]; [tauto|]. destruct (Nat.eqb_spec x r1) as [Q'|Q']; [tauto|].
        destruct (Nat.eqb_spec x n2) as [Q3|Q3]; [split; [intros _; left; right; left; congruence|auto]|]. destruct (Nat.eqb_spec x n1) as [Q2|Q2]; [split; [intros _; left; left; congruence|auto]|]. split; [intro X; discriminate X|intros [[X|[X|[]]]|[X|X]]; congruence].
      * intros a b w r [].
      * split; [left; reflexivity|right; left; reflexivity].
      * intro v. rewrite Rg. split; [intro X; discriminate X|intros (x & [] & _)].
    + rewrite A. exists inc. split; [reflexivity|exact B].
Qed.
End Mark.

Theorem find_ok : (exists f, proper n f /\ cutw n W f = c /\ (0 < light T (wsum n vw f))%N) ->
  exists f inc, find_cut cond G C c start true = Some (Some inc, cut_edges G inc) /\ length inc = m_n G /\ (forall v, v < m_n G -> nth v inc false = f (nth v pos 0)) /\
    proper n f /\ cutw n W f = c /\ forall f', proper n f' -> cutw n W f' = c -> (light T (wsum n vw f') <= light T (wsum n vw f))%N.
Proof.
  intros (f0 & P0 & C0 & Lo). destruct (dfs_ok cond G C c start VR SR HT T0 Hs) as (st & Pr & D).
  pose proof (best_max st D) as Mx. assert (Hb : (0 < b_w (s_best st))%N) by (eapply N.lt_le_trans; [exact Lo|apply Mx; assumption]).
  destruct (best_ok st D Hb) as (n1 & e1 & n2 & e2 & Eq & (f & r1 & r2 & h1 & h2 & S1 & S2 & Cb & Cw & Lw)).
  destruct (mark_ok' f n1 r1 n2 r2 Cb e1 e2 h1 h2 S1 S2) as (inc & M & Li & Hi).
  exists f, inc. split; [|split; [exact Li|split; [exact Hi|split; [|split; [exact Cw|]]]]].
  - unfold find_cut. destruct (N.eqb_spec c 0) as [Q|_]; [rewrite Q in c0; destruct (N.lt_irrefl _ c0)|]. unfold run_dfs. rewrite Pr, Eq, M. reflexivity.
  - destruct Cb as (L1 & _ & L3 & _ & F1 & _ & F3 & _). split; [exists n1; auto|exists r1; auto].
  - intros f' P' C'. rewrite Lw. apply Mx; assumption.
Qed.
End Best.
