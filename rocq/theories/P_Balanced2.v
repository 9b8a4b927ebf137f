(* P_Balanced2.v - the depth first search of balanced_cut_dfs.h: invariant and total correctness of processVertex. *)
From Verif Require Import M_Balanced SpecCut P_Balanced.

Definition pf (st : dst) (x : nat) : option nat := nth x (s_par st) None.
Definition sf (st : dst) (x : nat) : option N := nth x (s_sub st) None.
Definition stt (st : dst) (x : nat) : vstat := nth x (s_stat st) Undiscovered.
Definition out (st : dst) (x : nat) : list nat := nth x (s_out st) [].
Definition disc (st : dst) (x : nat) : Prop := stt st x <> Undiscovered.
Definition fin (st : dst) (x : nat) : Prop := stt st x = Finished.
Definition act (st : dst) (x : nat) : Prop := stt st x = Active \/ stt st x = OnCycle.
Definition subn (st : dst) (x : nat) : N := match sf st x with Some w => w | None => 0%N end.

Lemma fin_disc st x : fin st x -> disc st x. Proof. unfold fin, disc. congruence. Qed.
Lemma act_disc st x : act st x -> disc st x. Proof. unfold act, disc. intros [E|E]; congruence. Qed.
Lemma disc_cases st x : disc st x -> act st x \/ fin st x.
Proof. unfold disc, act, fin. destruct (stt st x); auto. congruence. Qed.
Lemma act_fin st x : act st x -> fin st x -> False. Proof. unfold act, fin. intros [E|E]; congruence. Qed.

(** the weights of the cycle above prev *)
Fixpoint cwts (T : N) (sub : nat -> N) (prev : nat) (l : list nat) : list (nat * N) :=
  match l with
  | [] => []
  | [u] => [(u, T - sub prev)%N]
  | v :: l' => (v, sub v - sub prev)%N :: cwts T sub v l'
  end.
Definition cycl (T : N) (sub : nat -> N) (x : nat) (l : list nat) : list (nat * N) := (x, sub x) :: cwts T sub x l.

Lemma cwts_fst T sub l : forall prev, map fst (cwts T sub prev l) = l.
Proof. induction l as [|v l IH]; intro prev; [reflexivity|]. destruct l as [|v' l]; [reflexivity|]. change (map fst (cwts T sub prev (v :: v' :: l))) with (v :: map fst (cwts T sub v (v' :: l))). rewrite IH. reflexivity. Qed.
Lemma cycl_fst T sub x l : map fst (cycl T sub x l) = x :: l.
Proof. cbn. rewrite cwts_fst. reflexivity. Qed.
Lemma cycl_len T sub x l : length (cycl T sub x l) = S (length l).
Proof. rewrite <- (map_length fst), cycl_fst. reflexivity. Qed.
Lemma cwts_ext T (sub sub' : nat -> N) u l : forall prev, last l u = u -> NoDup l -> sub prev = sub' prev -> (forall y, In y l -> y <> u -> sub y = sub' y) -> cwts T sub prev l = cwts T sub' prev l.
Proof.
  induction l as [|v l IH]; intros prev La Nd E1 E2; [reflexivity|]. destruct l as [|v' l].
  - cbn. rewrite E1. reflexivity.
  - change (cwts T sub prev (v :: v' :: l)) with ((v, sub v - sub prev)%N :: cwts T sub v (v' :: l)). change (cwts T sub' prev (v :: v' :: l)) with ((v, sub' v - sub' prev)%N :: cwts T sub' v (v' :: l)).
    inversion Nd as [|? ? Ni Nd']; subst.
    assert (Ev : sub v = sub' v). { apply E2; [left; reflexivity|]. intros ->. apply Ni. change (last (v' :: l) u = u) in La. rewrite <- La.  destruct (@exists_last _ (v' :: l)) as (l1 & z & Q); [discriminate|]. rewrite Q, last_last. apply in_or_app. right. left. reflexivity. }
    rewrite E1, Ev. f_equal. apply IH; auto. intros y I. apply E2. right. exact I.
Qed.

Lemma sumN_incl {A} (f : A -> N) (l l' : list A) : NoDup l -> incl l l' -> (sumN f l <= sumN f l')%N.
Proof.
  revert l'. induction l as [|x l IH]; intros l' Nd I; [cbn; lia|]. inversion Nd; subst. destruct (in_split x l' (I x (or_introl eq_refl))) as (a & b & ->).
  rewrite sumN_app. cbn [sumN fold_right map]. specialize (IH (a ++ b) H2). rewrite sumN_app in IH.
  assert (incl l (a ++ b)). { intros y Hy. assert (In y (a ++ x :: b)) as Q by (apply I; right; auto). apply in_app_or in Q as [Q|[Q|Q]]; apply in_or_app; auto. subst. contradiction. }
  specialize (IH H). unfold sumN in *. cbn in *. lia.
Qed.

Lemma NoDup_app_in {A} (l1 l2 : list A) : NoDup l1 -> NoDup l2 -> (forall x, In x l1 -> In x l2 -> False) -> NoDup (l1 ++ l2).
Proof.
  induction l1 as [|x l1 IH]; intros N1 N2 D; [exact N2|]. inversion N1; subst. cbn. constructor.
  - intro I. apply in_app_or in I as [I|I]; [contradiction|]. apply (D x); [left; reflexivity|exact I].
  - apply IH; auto. intros y I1 I2. apply (D y); [right; exact I1|exact I2].
Qed.

Lemma bsum_list {A} (f : A -> N) (l : list A) d : bsum (length l) (fun i => f (nth i l d)) = sumN f l.
Proof.
  induction l as [|x l IH] using rev_ind; [reflexivity|]. rewrite app_length. cbn [length]. rewrite Nat.add_1_r, bsum_S, sumN_app, nth_middle. rewrite <- IH. cbn [sumN fold_right map]. 
  f_equal; [apply bsum_ext; intros i Hi; rewrite app_nth1 by exact Hi; reflexivity|]. unfold sumN. cbn. lia.
Qed.

Section Dfs.
Context (cond : bool) (G C : mg) (mincut : N) (start : nat).
Notation T := (total_weight cond G C).
Notation vw := (vertex_weight cond G C).
Notation R := (m_rows C).
Notation n := (m_n C).
Definition edgew (x u : nat) (w : N) : Prop := exists r, In (u, w, r) (nth x R []).
Definition edge (x u : nat) : Prop := exists w, edgew x u w.
Context (VR : valid_rows R) (SR : forall v, NoDup (map (fun h : half => fst (fst h)) (nth v R []))) (HT : sumN vw (seq 0 n) = T) (T0 : (0 < T)%N) (Hs : start < n).

Lemma edgew_sym x u w : edgew x u w -> edgew u x w /\ x < n /\ u < n /\ x <> u.
Proof.
  intros (r & I). apply In_nth_error in I as (e & E). destruct (VR x e u w r E) as (A & B & D).
  split; [exists e; eapply nth_error_In; exact D|]. split; [|split; [exact A|auto]].
  destruct (Nat.lt_ge_cases x n) as [L|L]; [exact L|]. rewrite nth_overflow in E by exact L. destruct e; discriminate E.
Qed.
Lemma edge_sym x u : edge x u -> edge u x /\ x < n /\ u < n /\ x <> u.
Proof. intros (w & E). apply edgew_sym in E as (A & B). split; [exists w; exact A|exact B]. Qed.
Lemma edgew_fun x u w w' : edgew x u w -> edgew x u w' -> w = w'.
Proof.
  intros (r & I) (r' & I'). specialize (SR x). induction (nth x R []) as [|h row IH]; [destruct I|]. cbn in SR. inversion SR as [|? ? Ni Nd]; subst.
  destruct I as [->|I], I' as [E|I'].
  - congruence.
  - exfalso. apply Ni. cbn. apply (in_map (fun h : half => fst (fst h)) _ _ I').
  - subst h. exfalso. apply Ni. cbn. apply (in_map (fun h : half => fst (fst h)) _ _ I).
  - apply IH; auto.
Qed.

(** *** the invariant *)
Fixpoint chain (p : nat -> option nat) (s : list nat) : Prop :=
  match s with
  | [] => True
  | a :: s' => match s' with [] => a = start /\ p a = None | b :: _ => p a = Some b /\ chain p s' end
  end.

Definition okL (st : dst) (x : nat) (L : list nat) : Prop := NoDup L /\ forall y, In y L <-> anc (pf st) y x.

Record sinv (st : dst) (s : list nat) : Prop := mk_sinv {
  i_len : length (s_stat st) = n /\ length (s_sub st) = n /\ length (s_par st) = n /\ length (s_out st) = n;
  i_stk : forall x, act st x <-> In x s;
  i_par : forall x p, pf st x = Some p -> disc st x /\ disc st p /\ edge p x;
  i_root : pf st start = None;
  i_chain : chain (pf st) s;
  i_down : forall x p, fin st p -> pf st x = Some p -> fin st x;
  i_anc : forall x, disc st x -> anc (pf st) x start;
  i_edge : forall x u, fin st x -> edge x u -> disc st u /\ (anc (pf st) x u \/ anc (pf st) u x);
  i_sub : forall x, fin st x -> exists L, okL st x L /\ sf st x = Some (sumN vw L);
  i_out : forall x u, fin st x -> edge x u -> anc (pf st) x u -> pf st x <> Some u -> In x (out st u);
  i_out' : forall x u, In x (out st u) -> edge x u /\ anc (pf st) x u /\ pf st x <> Some u /\ disc st x;
  i_cyc : forall u, act st u -> out st u <> [] -> stt st u = OnCycle
}.

(** a cycle found: path from x to u, closed by an edge *)
Definition ok_cyc (st : dst) (x u : nat) (l : list nat) : Prop :=
  In x (out st u) /\ path (pf st) x u (x :: l) /\ forall y, In y (x :: l) -> y <> u -> fin st y.
Definition cy (st : dst) (x : nat) (l : list nat) : list (nat * N) := cycl T (subn st) x l.

Definition from (st : dst) (b : best) : Prop :=
  b_w b = 0%N \/
  (b_cyc b = false /\ exists t r wt, slot R (b_n b) (b_e b) = Some (t, mincut, r) /\ pf st t = Some (b_n b) /\ fin st t /\ sf st t = Some wt /\ b_w b = light T wt) \/
  (exists x u l i m, ok_cyc st x u l /\ m <= S (length l) /\ recorded cond G C (cy st x l) b i m).

Record binv (st : dst) : Prop := mk_binv {
  i_tree : forall p x wx, fin st p -> pf st x = Some p -> edgew p x mincut -> sf st x = Some wx -> (light T wx <= b_w (s_best st))%N;
  i_arcs : forall u x l, fin st u -> ok_cyc st x u l -> forall i m, i <= S (length l) -> m <= S (length l) -> (light T (arc (cy st x l) i m) <= b_w (s_best st))%N;
  i_from : from st (s_best st)
}.

Record ext (st st' : dst) : Prop := mk_ext {
  e_disc : forall x, disc st x -> disc st' x /\ pf st' x = pf st x;
  e_fin : forall x, fin st x -> fin st' x /\ sf st' x = sf st x /\ out st' x = out st x;
  e_out : forall x u, In x (out st u) -> In x (out st' u);
  e_best : (b_w (s_best st) <= b_w (s_best st'))%N
}.
Lemma ext_refl st : ext st st.
Proof. constructor; auto. lia. Qed.
Lemma ext_trans a b c : ext a b -> ext b c -> ext a c.
Proof.
  intros [A1 A2 A3 A4] [B1 B2 B3 B4]. constructor.
  - intros x D. destruct (A1 x D) as [D1 E1]. destruct (B1 x D1) as [D2 E2]. split; [exact D2|congruence].
  - intros x D. destruct (A2 x D) as (D1 & E1 & F1). destruct (B2 x D1) as (D2 & E2 & F2). split; [exact D2|]. split; congruence.
  - auto.
  - lia.
Qed.

(** *** consequences *)
Lemma disc_closed st s : sinv st s -> forall z y, disc st z -> pf st z = Some y -> disc st y.
Proof. intros I z y _ E. apply (i_par _ _ I) in E as (_ & A & _). exact A. Qed.
Lemma anc_disc st s x v : sinv st s -> disc st x -> anc (pf st) x v -> disc st v.
Proof. intros I D A. apply (anc_closed (pf st) (disc st) x v); auto. apply (disc_closed st s I). Qed.
Lemma anc_disc_low st s x v : sinv st s -> disc st v -> anc (pf st) x v -> disc st x.
Proof. intros I D A. apply anc_inv in A as [->|(y & E & _)]; [exact D|]. apply (i_par _ _ I) in E as (A & _). exact A. Qed.
Lemma fin_down st s x v : sinv st s -> fin st v -> anc (pf st) x v -> fin st x.
Proof. intros I F [k A]. induction A as [|k x y v H A IH]; [exact F|]. apply (i_down _ _ I x y); [apply IH; exact F|exact H]. Qed.
Lemma disc_lt st s x : sinv st s -> disc st x -> x < n.
Proof. intros I D. destruct (Nat.lt_ge_cases x n) as [L|L]; [exact L|]. exfalso. apply D. unfold stt. apply nth_overflow. destruct (i_len _ _ I) as (E & _). lia. Qed.
Lemma antisym st s x y : sinv st s -> disc st y -> anc (pf st) x y -> anc (pf st) y x -> x = y.
Proof. intros I D. apply (anc_antisym (pf st) start); [apply (i_root _ _ I)|apply (i_anc _ _ I); exact D]. Qed.
Lemma chain_anc (p : nat -> option nat) h s x : chain p (h :: s) -> In x (h :: s) -> anc p h x.
Proof.
  revert h. induction s as [|b s IH]; intros h Ch [<-|I]; try apply anc_refl; [destruct I|]. destruct Ch as [E Ch]. apply (anc_step _ _ b); [exact E|]. apply IH; auto.
Qed.
Lemma below_fin st h s x : sinv st (h :: s) -> anc (pf st) x h -> x <> h -> fin st x.
Proof.
  intros I A N. assert (D : disc st x). { apply anc_inv in A as [->|(y & E & _)]; [congruence|]. apply (i_par _ _ I) in E as (A & _). exact A. }
  destruct (disc_cases _ _ D) as [B|B]; [|exact B]. exfalso. apply (i_stk _ _ I) in B. apply N.
  apply (antisym st (h :: s)); auto; [apply act_disc, (i_stk _ _ I); left; reflexivity|]. apply (chain_anc _ _ s); [apply (i_chain _ _ I)|exact B].
Qed.
Lemma ext_anc st s st' x v : sinv st s -> ext st st' -> disc st x -> (anc (pf st) x v <-> anc (pf st') x v).
Proof. intros I E D. apply (anc_ext (pf st) (pf st') (disc st)); auto; [apply (disc_closed st s I)|]. intros z Dz. apply (e_disc _ _ E z Dz). Qed.

Lemma sub_mono st s x y wx wy : sinv st s -> fin st x -> fin st y -> anc (pf st) x y -> sf st x = Some wx -> sf st y = Some wy -> (wx <= wy)%N.
Proof.
  intros I Fx Fy A Ex Ey. destruct (i_sub _ _ I x Fx) as (L & [Nd HL] & E). destruct (i_sub _ _ I y Fy) as (L' & [Nd' HL'] & E'). rewrite Ex in E. rewrite Ey in E'. injection E as ->. injection E' as ->.
  apply sumN_incl; [exact Nd|]. intros z Hz. apply HL'. apply HL in Hz. eapply anc_trans; eauto.
Qed.
Lemma sub_le st s x wx : sinv st s -> fin st x -> sf st x = Some wx -> (wx <= T)%N.
Proof.
  intros I Fx Ex. destruct (i_sub _ _ I x Fx) as (L & [Nd HL] & E). rewrite Ex in E. injection E as ->. rewrite <- HT.
  apply sumN_incl; [exact Nd|]. intros z Hz. apply HL in Hz. apply in_seq. pose proof (disc_lt st s z I (anc_disc_low st s z x I (fin_disc _ _ Fx) Hz)). lia.
Qed.
Lemma subn_sf st s x : sinv st s -> fin st x -> sf st x = Some (subn st x).
Proof. intros I F. unfold subn. destruct (i_sub _ _ I x F) as (L & _ & ->). reflexivity. Qed.

Lemma ext_cyc st s st' x u l : sinv st s -> ext st st' -> ok_cyc st x u l -> ok_cyc st' x u l /\ cy st' x l = cy st x l.
Proof.
  intros I E (A & B & F). destruct (i_out' _ _ I x u A) as (Ed & An & Np & D). split.
  - split; [apply (e_out _ _ E); exact A|]. split.
    + apply (path_ext (pf st) (pf st') (disc st)); auto; [apply (disc_closed st s I)|]. intros z Dz. apply (e_disc _ _ E z Dz).
    + intros y Iy N. apply (e_fin _ _ E y (F y Iy N)).
  - assert (Q : forall y, In y (x :: l) -> y <> u -> subn st' y = subn st y). { intros y Iy N. unfold subn. destruct (e_fin _ _ E y (F y Iy N)) as (_ & -> & _). reflexivity. }
    assert (Nx : x <> u) by (apply edge_sym in Ed; tauto).
    pose proof (path_nodup (pf st) start x u (x :: l) (i_root _ _ I) (i_anc _ _ I u (anc_disc st s x u I D An)) B) as Nd. inversion Nd; subst.
    unfold cy, cycl. rewrite (Q x (or_introl eq_refl) Nx). f_equal. apply (cwts_ext T _ _ u); auto.
    + pose proof (path_last _ _ _ _ u B) as La. destruct l as [|z l]; [reflexivity|]. exact La.
    + apply Q; [left; reflexivity|exact Nx].
    + intros y Iy N. apply Q; [right; exact Iy|exact N].
Qed.
Lemma ext_from st s st' b : sinv st s -> ext st st' -> from st b -> from st' b.
Proof.
  intros I E [Z|[(A & t & r & wt & B & D & F & Sf & W)|(x & u & l & i & m & A & B & D)]]; [left; exact Z| |].
  - right. left. split; [exact A|]. exists t, r, wt. destruct (e_fin _ _ E t F) as (F' & Sf' & _). destruct (e_disc _ _ E t (fin_disc _ _ F)) as (_ & P'). rewrite Sf', P'. auto 7.
  - right. right. exists x, u, l, i, m. destruct (ext_cyc st s st' x u l I E A) as [A' ->]. auto.
Qed.
Lemma cyc_back st s st' x u l : sinv st s -> ext st st' -> fin st u -> ok_cyc st' x u l -> ok_cyc st x u l.
Proof.
  intros I E F (A & B & D). destruct (e_fin _ _ E u F) as (_ & _ & O). rewrite O in A. destruct (i_out' _ _ I x u A) as (Ed & An & Np & Dx).
  assert (P : path (pf st) x u (x :: l)).
  { destruct (anc_path _ _ _ An) as (l' & P). assert (P' : path (pf st') x u l') by (apply (path_ext (pf st) (pf st') (disc st)); auto; [apply (disc_closed st s I)|intros z Dz; apply (e_disc _ _ E z Dz)]).
    rewrite (path_fun _ _ _ _ _ B P'). exact P. }
  split; [exact A|]. split; [exact P|]. intros y Iy N. apply (fin_down st s y u I F). apply (path_mid _ _ _ _ _ P Iy).
Qed.

Lemma binv_ext st s st' : sinv st s -> ext st st' -> (forall p, fin st' p -> fin st p) ->
  (forall x p, fin st p -> pf st' x = Some p -> pf st x = Some p) -> s_best st' = s_best st -> binv st -> binv st'.
Proof.
  intros I E F P B [B1 B2 B3]. constructor; rewrite B.
  - intros p x wx Fp Px Ew Sx. apply F in Fp. apply (P x p Fp) in Px. apply (B1 p x); auto. rewrite <- Sx. symmetry. apply (e_fin _ _ E x). apply (i_down _ _ I x p Fp Px).
  - intros u x l Fu O i m Hi Hm. apply F in Fu. pose proof (cyc_back st s st' x u l I E Fu O) as O'. destruct (ext_cyc st s st' x u l I E O') as [_ ->]. apply (B2 u); auto.
  - eapply ext_from; eauto.
Qed.

(** *** discovering a vertex *)
Definition discover (st : dst) (t h : nat) : dst := set_stat (set_par st t h) t Active.
Lemma stt_upd st x v y : length (s_stat st) = n -> x < n -> nth y (upd (s_stat st) x v) Undiscovered = if y =? x then v else stt st y.
Proof. intros L H. destruct (Nat.eqb_spec y x) as [->|N]; [rewrite nth_upd_eq by lia; reflexivity|]. rewrite nth_upd_neq by auto. reflexivity. Qed.

Section Discover.
Context (st : dst) (s : list nat) (t h : nat) (I : sinv st (h :: s)) (Ut : ~ disc st t) (Lt : t < n) (Ed : edge h t).
Notation st1 := (discover st t h).
Lemma dc_stt y : stt st1 y = if y =? t then Active else stt st y.
Proof. unfold stt, discover, set_stat, set_par. cbn. apply stt_upd; auto. apply (i_len _ _ I). Qed.
Lemma dc_pf y : pf st1 y = if y =? t then Some h else pf st y.
Proof.
  unfold pf, discover, set_stat, set_par. cbn. destruct (i_len _ _ I) as (_ & _ & L & _). destruct (Nat.eqb_spec y t) as [->|N]; [rewrite nth_upd_eq by lia; reflexivity|]. rewrite nth_upd_neq by auto. reflexivity.
Qed.
Lemma dc_disc y : disc st1 y <-> disc st y \/ y = t.
Proof. unfold disc. rewrite dc_stt. destruct (Nat.eqb_spec y t) as [->|N]; split; intros; auto; [discriminate|]. destruct H; [auto|contradiction]. Qed.
Lemma dc_fin y : fin st1 y <-> fin st y.
Proof. unfold fin. rewrite dc_stt. destruct (Nat.eqb_spec y t) as [->|N]; [|tauto]. split; [discriminate|]. intro F. exfalso. apply Ut. apply fin_disc. exact F. Qed.
Lemma dc_ext : ext st st1.
Proof.
  constructor.
  - intros x D. split; [apply dc_disc; auto|]. rewrite dc_pf. destruct (Nat.eqb_spec x t) as [->|N]; [contradiction|reflexivity].
  - intros x F. split; [apply dc_fin; exact F|]. split; reflexivity.
  - auto.
  - unfold discover, set_stat, set_par. cbn. lia.
Qed.
Lemma dc_h : disc st h.
Proof. apply act_disc. apply (i_stk _ _ I). left. reflexivity. Qed.
Lemma dc_anc_fin y x : fin st x -> (anc (pf st1) y x <-> anc (pf st) y x).
Proof.
  intro F. assert (Dx : disc st x) by (apply fin_disc; exact F). split; intro A.
  - destruct (Nat.eq_dec y t) as [->|N].
    + apply anc_inv in A as [->|(z & E & A)]; [contradiction|]. rewrite dc_pf, Nat.eqb_refl in E. injection E as <-.
      apply (ext_anc st (h :: s) st1 h x I dc_ext dc_h) in A. exfalso. apply (act_fin st h); [apply (i_stk _ _ I); left; reflexivity|]. apply (fin_down st (h :: s) h x); auto.
    + assert (D : disc st y). { apply anc_inv in A as [->|(z & E & A)]; [exact Dx|]. rewrite dc_pf in E. destruct (Nat.eqb_spec y t); [contradiction|]. apply (i_par _ _ I) in E. tauto. }
      apply (ext_anc st (h :: s) st1 y x I dc_ext D). exact A.
  - apply (ext_anc st (h :: s) st1 y x I dc_ext); auto. apply (anc_disc_low st (h :: s) y x); auto.
Qed.
Lemma dc_par_back x p : fin st p -> pf st1 x = Some p -> pf st x = Some p.
Proof.
  intros F E. rewrite dc_pf in E. destruct (Nat.eqb_spec x t) as [->|N]; [|exact E]. injection E as <-. exfalso. apply (act_fin st h); auto. apply (i_stk _ _ I). left. reflexivity.
Qed.
Lemma dc_sinv : sinv st1 (t :: h :: s).
Proof.
  pose proof dc_ext as E. constructor.
  - unfold discover, set_stat, set_par. cbn. rewrite !upd_length. apply (i_len _ _ I).
  - intro x. unfold act. rewrite dc_stt. destruct (Nat.eqb_spec x t) as [->|N].
    + split; intro; [left; reflexivity|left; reflexivity].
    + fold (act st x). rewrite (i_stk _ _ I). split; intro Q; [right; exact Q|]. destruct Q as [Q|Q]; [congruence|exact Q].
  - intros x p H. rewrite dc_pf in H. destruct (Nat.eqb_spec x t) as [->|N].
    + injection H as <-. split; [apply dc_disc; auto|]. split; [apply dc_disc; left; apply dc_h|exact Ed].
    + apply (i_par _ _ I) in H as (A & B & D). split; [apply dc_disc; auto|]. split; [apply dc_disc; auto|exact D].
  - rewrite dc_pf. destruct (Nat.eqb_spec start t) as [Q|N]; [|apply (i_root _ _ I)]. exfalso. subst t. apply Ut. apply (anc_disc st (h :: s) h start I dc_h). apply (i_anc _ _ I). apply dc_h.
  - split; [rewrite dc_pf, Nat.eqb_refl; reflexivity|]. 
    assert (Q : forall l, (forall x, In x l -> disc st x) -> chain (pf st) l -> chain (pf st1) l).
    { induction l as [|a l IH]; intros H Ch; [exact Logic.I|]. assert (Pa : pf st1 a = pf st a). { rewrite dc_pf. destruct (Nat.eqb_spec a t) as [->|]; [|reflexivity]. exfalso. apply Ut. apply H. left. reflexivity. }
      destruct l as [|b l]; cbn [chain] in *; [rewrite Pa; exact Ch|]. rewrite Pa. destruct Ch as [C1 C2]. split; [exact C1|]. apply IH; auto. intros x Hx. apply H. right. exact Hx. }
    apply Q; [|apply (i_chain _ _ I)]. intros x Hx. apply act_disc. apply (i_stk _ _ I). exact Hx.
  - intros x p F H. apply dc_fin in F. apply dc_fin. apply (i_down _ _ I x p F). apply dc_par_back; auto.
  - intros x D. apply dc_disc in D as [D|D].
    + apply (ext_anc st (h :: s) st1 x start I E D). apply (i_anc _ _ I). exact D.
    + subst x. apply (anc_step _ _ h); [rewrite dc_pf, Nat.eqb_refl; reflexivity|]. apply (ext_anc st (h :: s) st1 h start I E dc_h). apply (i_anc _ _ I). apply dc_h.
  - intros x u F H. apply dc_fin in F. destruct (i_edge _ _ I x u F H) as (D & A). split; [apply dc_disc; auto|].
    rewrite <- (ext_anc st (h :: s) st1 x u I E (fin_disc _ _ F)), <- (ext_anc st (h :: s) st1 u x I E D). exact A.
  - intros x F. apply dc_fin in F. destruct (i_sub _ _ I x F) as (L & [Nd HL] & Q). exists L. split; [|exact Q]. split; [exact Nd|]. intro y. rewrite HL. symmetry. apply dc_anc_fin. exact F.
  - intros x u F H A P. apply dc_fin in F. apply (i_out _ _ I x u F H).
    + apply (ext_anc st (h :: s) st1 x u I E (fin_disc _ _ F)). exact A.
    + intro Q. apply P. rewrite <- Q. apply (e_disc _ _ E x (fin_disc _ _ F)).
  - intros x u H. destruct (i_out' _ _ I x u H) as (A & B & D & F). split; [exact A|]. split; [apply (ext_anc st (h :: s) st1 x u I E F); exact B|]. split; [|apply dc_disc; auto].
    destruct (e_disc _ _ E x F) as (_ & ->). exact D.
  - intros u A O. unfold act in A. rewrite dc_stt in A. rewrite dc_stt. destruct (Nat.eqb_spec u t) as [Qt|N]; [|apply (i_cyc _ _ I); auto].
    exfalso. apply O. rewrite Qt. change (out st t = []). destruct (out st t) as [|x l] eqn:Q; [reflexivity|]. exfalso. apply Ut. destruct (i_out' _ _ I x t) as (_ & B & _ & F); [rewrite Q; left; reflexivity|]. apply (anc_disc st (h :: s) x t); auto.
Qed.
Lemma dc_binv : binv st -> binv st1.
Proof. intro B. apply (binv_ext st (h :: s) st1); auto; [apply dc_ext|intros p F; apply dc_fin; exact F|apply dc_par_back]. Qed.
Lemma dc_fresh x : anc (pf st1) x t -> x = t.
Proof.
  intro A. destruct (Nat.eq_dec x t) as [Q|N]; [exact Q|]. exfalso. apply Ut.
  assert (D : disc st x). { apply anc_inv in A as [->|(z & E & A)]; [congruence|]. rewrite dc_pf in E. destruct (Nat.eqb_spec x t); [contradiction|]. apply (i_par _ _ I) in E. tauto. }
  apply (anc_disc st (h :: s) x t I D). apply (ext_anc st (h :: s) st1 x t I dc_ext D). exact A.
Qed.
Lemma dc_out : out st1 t = [].
Proof.
  change (out st t = []). destruct (out st t) as [|x l] eqn:Q; [reflexivity|]. exfalso. apply Ut. destruct (i_out' _ _ I x t) as (_ & B & _ & F); [rewrite Q; left; reflexivity|]. apply (anc_disc st (h :: s) x t); auto.
Qed.
End Discover.

(** *** marking a cycle *)
Lemma mark_ok st s v t : sinv st (v :: s) -> binv st -> In t s -> edge v t -> pf st v <> Some t ->
  sinv (mark_cycle st t v) (v :: s) /\ binv (mark_cycle st t v) /\ ext st (mark_cycle st t v) /\ In v (out (mark_cycle st t v) t) /\ (forall x, stt (mark_cycle st t v) x = stt st x \/ (act st x /\ act (mark_cycle st t v) x)).
Proof.
  intros I B It Ed Np. set (st1 := mark_cycle st t v). destruct (i_len _ _ I) as (L1 & L2 & L3 & L4).
  assert (At : act st t) by (apply (i_stk _ _ I); right; exact It). assert (Lt : t < n) by (apply (disc_lt st (v :: s)); auto; apply act_disc; exact At).
  assert (Av : act st v) by (apply (i_stk _ _ I); left; reflexivity).
  assert (S1 : forall y, stt st1 y = if y =? t then OnCycle else stt st y) by (intro y; apply stt_upd; auto).
  assert (O1 : forall y, out st1 y = if y =? t then out st t ++ [v] else out st y).
  { intro y. unfold out, st1, mark_cycle. cbn. destruct (Nat.eqb_spec y t) as [->|N]; [rewrite nth_upd_eq by lia; reflexivity|]. rewrite nth_upd_neq by auto. reflexivity. }
  assert (A1 : forall y, act st1 y <-> act st y). { intro y. unfold act. rewrite S1. destruct (Nat.eqb_spec y t) as [->|N]; [|tauto]. unfold act in At. tauto. }
  assert (F1 : forall y, fin st1 y <-> fin st y). { intro y. unfold fin. rewrite S1. destruct (Nat.eqb_spec y t) as [->|N]; [|tauto]. split; [discriminate|]. intro F. exfalso. apply (act_fin st t); auto. }
  assert (D1 : forall y, disc st1 y <-> disc st y). { intro y. unfold disc. rewrite S1. destruct (Nat.eqb_spec y t) as [->|N]; [|tauto]. split; [|discriminate]. intros _. apply act_disc. exact At. }
  assert (P1 : pf st1 = pf st) by reflexivity. assert (Anc : anc (pf st) v t) by (apply (chain_anc _ _ s); [apply (i_chain _ _ I)|right; exact It]).
  assert (E : ext st st1).
  { constructor.
    - intros x D. split; [apply D1; exact D|reflexivity].
    - intros x F. split; [apply F1; exact F|]. split; [reflexivity|]. rewrite O1. destruct (Nat.eqb_spec x t) as [->|N]; [|reflexivity]. exfalso. apply (act_fin st t); auto.
    - intros x u H. rewrite O1. destruct (Nat.eqb_spec u t) as [->|N]; [|exact H]. apply in_or_app. left. exact H.
    - cbn. lia. }
  split; [|split; [|split; [exact E|split]]].
  - constructor.
    + unfold st1, mark_cycle. cbn. rewrite !upd_length. auto.
    + intro x. rewrite A1. apply (i_stk _ _ I).
    + intros x p H. apply (i_par _ _ I) in H as (A & D & F). rewrite !D1. auto.
    + apply (i_root _ _ I).
    + apply (i_chain _ _ I).
    + intros x p F H. apply F1 in F. apply F1. apply (i_down _ _ I x p); auto.
    + intros x D. apply D1 in D. apply (i_anc _ _ I). exact D.
    + intros x u F H. apply F1 in F. rewrite D1. apply (i_edge _ _ I); auto.
    + intros x F. apply F1 in F. apply (i_sub _ _ I x F).
    + intros x u F H A P. apply F1 in F. apply (e_out _ _ E). apply (i_out _ _ I); auto.
    + intros x u H. rewrite D1. rewrite O1 in H. destruct (Nat.eqb_spec u t) as [Qt|N]; [rewrite Qt|apply (i_out' _ _ I); auto].
      apply in_app_or in H as [H|[<-|[]]]; [apply (i_out' _ _ I); auto|]. split; [exact Ed|]. split; [exact Anc|]. split; [exact Np|]. apply act_disc. exact Av.
    + intros u A O. apply A1 in A. rewrite S1. rewrite O1 in O. destruct (Nat.eqb_spec u t) as [Qt|N]; [reflexivity|]. apply (i_cyc _ _ I); auto.
  - apply (binv_ext st (v :: s) st1); auto. intros p F. apply F1. exact F.
  - rewrite O1, Nat.eqb_refl. apply in_or_app. right. left. reflexivity.
  - intro x. rewrite A1. rewrite S1. destruct (Nat.eqb_spec x t) as [->|N]; auto.
Qed.

(** *** finishing a vertex *)
Lemma finish_ok st s v L : sinv st (v :: s) -> binv st ->
  (forall u, edge v u -> disc st u /\ (anc (pf st) v u \/ anc (pf st) u v) /\ (anc (pf st) v u -> pf st v <> Some u -> In v (out st u))) ->
  okL st v L ->
  (forall x wx, pf st x = Some v -> edgew v x mincut -> sf st x = Some wx -> (light T wx <= b_w (s_best st))%N) ->
  (forall x l, ok_cyc st x v l -> forall i m, i <= S (length l) -> m <= S (length l) -> (light T (arc (cy st x l) i m) <= b_w (s_best st))%N) ->
  let st1 := finish st v (sumN vw L) in
  sinv st1 s /\ binv st1 /\ ext st st1 /\ fin st1 v.
Proof.
  intros I B He [Nd HL] Ht Hc st1. destruct (i_len _ _ I) as (L1 & L2 & L3 & L4).
  assert (Av : act st v) by (apply (i_stk _ _ I); left; reflexivity). assert (Dv : disc st v) by (apply act_disc; exact Av). assert (Lv : v < n) by (apply (disc_lt st (v :: s)); auto).
  assert (S1 : forall y, stt st1 y = if y =? v then Finished else stt st y) by (intro y; apply stt_upd; auto).
  assert (P1 : pf st1 = pf st) by reflexivity. assert (O1 : out st1 = out st) by reflexivity.
  assert (U1 : forall y, sf st1 y = if y =? v then Some (sumN vw L) else sf st y).
  { intro y. unfold sf, st1, finish. cbn. destruct (Nat.eqb_spec y v) as [->|N]; [rewrite nth_upd_eq by lia; reflexivity|]. rewrite nth_upd_neq by auto. reflexivity. }
  assert (F1 : forall y, fin st1 y <-> fin st y \/ y = v). { intro y. unfold fin. rewrite S1. destruct (Nat.eqb_spec y v) as [->|N]; [tauto|]. tauto. }
  assert (D1 : forall y, disc st1 y <-> disc st y). { intro y. unfold disc. rewrite S1. destruct (Nat.eqb_spec y v) as [->|N]; [|tauto]. split; [intros _; exact Dv|discriminate]. }
  assert (Nfv : ~ fin st v) by (intro F; apply (act_fin st v); auto).
  assert (Nv : ~ In v s).
  { intro Q. pose proof (i_chain _ _ I) as Ch. destruct s as [|b s]; [destruct Q|]. destruct Ch as [Pb Ch].
    apply (par_strict (pf st) start v b (i_root _ _ I)); [apply (i_anc _ _ I); apply (i_par _ _ I) in Pb; tauto|exact Pb|]. apply (chain_anc _ _ s); auto. }
  assert (E : ext st st1).
  { constructor.
    - intros x D. split; [apply D1; exact D|reflexivity].
    - intros x F. split; [apply F1; auto|]. split; [|reflexivity]. rewrite U1. destruct (Nat.eqb_spec x v) as [->|]; [contradiction|reflexivity].
    - auto.
    - cbn. lia. }
  assert (Dn : forall x, pf st x = Some v -> fin st x).
  { intros x Px. apply (below_fin st v s x I); [apply anc_par; exact Px|]. intros ->. apply (par_strict (pf st) start v v (i_root _ _ I)); auto; [apply (i_anc _ _ I); exact Dv|apply anc_refl]. }
  assert (IV : sinv st1 s).
  { constructor.
    + unfold st1, finish. cbn. rewrite !upd_length. auto.
    + intro x. unfold act. rewrite S1. destruct (Nat.eqb_spec x v) as [->|N].
      * split; [intros [Q|Q]; discriminate Q|intro; contradiction].
      * fold (act st x). rewrite (i_stk _ _ I). split; intro Q; [destruct Q as [Q|Q]; [congruence|exact Q]|right; exact Q].
    + intros x p H. apply (i_par _ _ I) in H as (A & D & F). rewrite !D1. auto.
    + apply (i_root _ _ I).
    + pose proof (i_chain _ _ I) as Ch. destruct s as [|b s]; [exact Logic.I|]. destruct Ch as [_ Ch]. exact Ch.
    + intros x p F H. apply F1. left. apply F1 in F as [F| ->]; [apply (i_down _ _ I x p); auto|apply Dn; exact H].
    + intros x D. apply D1 in D. apply (i_anc _ _ I). exact D.
    + intros x u F H. rewrite D1. apply F1 in F as [F| ->]; [apply (i_edge _ _ I); auto|]. destruct (He u H) as (A & A' & _). auto.
    + intros x F. destruct (Nat.eq_dec x v) as [->|N].
      * exists L. split; [split; auto|]. rewrite U1, Nat.eqb_refl. reflexivity.
      * apply F1 in F as [F|F]; [|contradiction]. rewrite U1. destruct (Nat.eqb_spec x v); [contradiction|]. apply (i_sub _ _ I x F).
    + intros x u F H A P. apply F1 in F as [F| ->]; [apply (i_out _ _ I); auto|]. destruct (He u H) as (_ & _ & Q). apply Q; auto.
    + intros x u H. rewrite D1. apply (i_out' _ _ I); auto.
    + intros u A O. unfold act in A. rewrite S1 in A |- *. destruct (Nat.eqb_spec u v) as [Qt|N]; [destruct A as [A|A]; discriminate A|]. apply (i_cyc _ _ I); auto. }
  split; [exact IV|]. split; [|split; [exact E|apply F1; auto]].
  destruct B as [B1 B2 B3]. change (s_best st1) with (s_best st) in *. constructor; change (s_best st1) with (s_best st).
  - intros p x wx F H Ew Sx. rewrite U1 in Sx. destruct (Nat.eqb_spec x v) as [->|N].
    + exfalso. apply F1 in F as [F| ->]; [apply Nfv; apply (i_down _ _ I v p); auto|].
      apply (par_strict (pf st) start v v (i_root _ _ I)); auto; [apply (i_anc _ _ I); exact Dv|apply anc_refl].
    + apply F1 in F as [F| ->]; [apply (B1 p x); auto|apply (Ht x); auto].
  - intros u x l F O i m Hi Hm. apply F1 in F as [F| ->].
    + pose proof (cyc_back st (v :: s) st1 x u l I E F O) as O'. destruct (ext_cyc st (v :: s) st1 x u l I E O') as [_ ->]. apply (B2 u); auto.
    + assert (O' : ok_cyc st x v l). { destruct O as (A & P & F). split; [exact A|]. split; [exact P|]. intros y Iy N. specialize (F y Iy N). apply F1 in F as [F|F]; [exact F|contradiction]. }
      destruct (ext_cyc st (v :: s) st1 x v l I E O') as [_ ->]. apply Hc; auto.
  - apply (ext_from st (v :: s) st1); auto.
Qed.

(** *** changing the best cut only *)
Definition set_best (st : dst) (b : best) : dst := mk_dst (s_stat st) (s_sub st) (s_par st) (s_out st) b.
Lemma set_best_sinv st s b : sinv st s -> sinv (set_best st b) s.
Proof. intros [A1 A2 A3 A4 A5 A6 A7 A8 A9 A10 A11 A12]. constructor; assumption. Qed.
Lemma set_best_binv st b : binv st -> (b_w (s_best st) <= b_w b)%N -> from st b -> binv (set_best st b).
Proof.
  intros [B1 B2 B3] L F. constructor.
  - intros p x wx H1 H2 H3 H4. specialize (B1 p x wx H1 H2 H3 H4). cbn. lia.
  - intros u x l H1 H2 i m Hi Hm. specialize (B2 u x l H1 H2 i m Hi Hm). cbn. unfold cy in *. change (subn (set_best st b)) with (subn st). lia.
  - exact F.
Qed.
Lemma set_best_ext st b : (b_w (s_best st) <= b_w b)%N -> ext st (set_best st b).
Proof. intro L. constructor; auto. Qed.

(** *** cycles *)
Lemma climb_ok st s u : sinv st s -> forall l x fuel, path (pf st) x u (x :: l) -> length l <= fuel -> (forall y, In y (x :: l) -> y <> u -> fin st y) ->
  climb_cycle cond G C fuel st u x = Some (cwts T (subn st) x l) /\ (x <> u -> sumN snd (cwts T (subn st) x l) = (T - subn st x)%N).
Proof.
  intro I. induction l as [|v l IH]; intros x fuel P Hf F.
  - inversion P; subst; [|match goal with Q : path _ _ _ [] |- _ => inversion Q end]. destruct fuel; cbn; rewrite Nat.eqb_refl; split; [reflexivity|congruence|reflexivity|congruence].
  - inversion P as [|x0 y u0 l0 Nx Px P' E1 E2 E3]; subst. destruct (path_head _ _ _ _ P') as (l2 & Q). injection Q as Q1 Q2. subst v l2.
    destruct fuel as [|fuel]; [cbn in Hf; lia|]. cbn [climb_cycle]. destruct (Nat.eqb_spec x u); [contradiction|].
    assert (Fx : fin st x) by (apply F; [left; reflexivity|exact Nx]). fold (pf st x) (sf st x). rewrite Px, (subn_sf st s x I Fx).
    pose proof (subn_sf st s x I Fx) as Sx. pose proof (sub_le st s x _ I Fx Sx) as Lx.
    destruct (IH y fuel P') as [IH1 IH2]; [cbn in Hf; lia|intros z Iz; apply F; right; exact Iz|]. rewrite IH1.
    destruct (Nat.eqb_spec y u) as [->|Ny].
    + assert (Q : u :: l = [u]) by (apply (path_fun _ _ _ _ _ P'); constructor). injection Q as ->. unfold wsub. destruct (N.leb_spec (subn st x) T); [|lia]. split; [reflexivity|]. intros _. cbn. lia.
    + assert (Fy : fin st y) by (apply F; [right; left; reflexivity|exact Ny]). fold (sf st y). rewrite (subn_sf st s y I Fy).
      pose proof (subn_sf st s y I Fy) as Sy. pose proof (sub_mono st s x y _ _ I Fx Fy (anc_par _ _ _ Px) Sx Sy) as Lxy. pose proof (sub_le st s y _ I Fy Sy) as Ly.
      unfold wsub. destruct (N.leb_spec (subn st x) (subn st y)); [|lia].
      destruct l as [|v l]; [exfalso; inversion P'; subst; [congruence|match goal with Q : path _ _ _ [] |- _ => inversion Q end]|].
      split; [reflexivity|]. intros _. change (cwts T (subn st) x (y :: v :: l)) with ((y, subn st y - subn st x)%N :: cwts T (subn st) y (v :: l)).
      change (sumN snd ((y, subn st y - subn st x)%N :: cwts T (subn st) y (v :: l))) with ((subn st y - subn st x) + sumN snd (cwts T (subn st) y (v :: l)))%N. rewrite (IH2 Ny). lia.
Qed.

Lemma psum_sum cyc : psum cyc (length cyc) = sumN snd cyc.
Proof. rewrite <- (bsum_list snd cyc (0, 0%N)). unfold psum, cwgt. apply bsum_ext. intros i Hi. rewrite Nat.mod_small by exact Hi. reflexivity. Qed.

Lemma investigate_ok st s x u : sinv st (u :: s) -> binv st -> In x (out st u) ->
  exists b, investigate cond G C st x u = Some (set_best st b) /\ (b_w (s_best st) <= b_w b)%N /\ from st b /\
    forall l, ok_cyc st x u l -> forall i m, i <= S (length l) -> m <= S (length l) -> (light T (arc (cy st x l) i m) <= b_w b)%N.
Proof.
  intros I B O. destruct (i_out' _ _ I x u O) as (Ed & An & Np & Dx). apply edge_sym in Ed as (_ & Lx & Lu & Nx).
  destruct (anc_path _ _ _ An) as (l0 & P). destruct (path_head _ _ _ _ P) as (l & ->).
  assert (F : forall y, In y (x :: l) -> y <> u -> fin st y). { intros y Iy N. apply (below_fin st u s y I); [|exact N]. apply (path_mid _ _ _ _ _ P Iy). }
  assert (Oc : ok_cyc st x u l) by (split; [exact O|split; [exact P|exact F]]).
  assert (Du : disc st u) by (apply act_disc, (i_stk _ _ I); left; reflexivity).
  assert (Ll : length l <= m_n C).
  { pose proof (path_nodup (pf st) start x u (x :: l) (i_root _ _ I) (i_anc _ _ I u Du) P) as Nd.
    assert (Q : length (x :: l) <= length (seq 0 n)). { apply NoDup_incl_length; [exact Nd|]. intros y Iy. apply in_seq. pose proof (disc_lt st (u :: s) y I). assert (disc st y) by (apply (anc_disc st (u :: s) x y I Dx); apply (path_mid _ _ _ _ _ P Iy)). specialize (H H0). lia. }
    rewrite seq_length in Q. cbn in Q. lia. }
  destruct (climb_ok st (u :: s) u I l x (m_n C) P Ll F) as [Cl Su]. specialize (Su Nx).
  assert (Fx : fin st x) by (apply F; [left; reflexivity|exact Nx]). pose proof (subn_sf st (u :: s) x I Fx) as Sx. pose proof (sub_le st (u :: s) x _ I Fx Sx) as Lex.
  unfold investigate. destruct (Nat.eqb_spec x u); [contradiction|]. fold (sf st x). rewrite Sx, Cl. cbv zeta. change ((x, subn st x) :: cwts T (subn st) x l) with (cy st x l).
  assert (W0 : cwgt (cy st x l) 0 = subn st x). { unfold cwgt. rewrite Nat.mod_0_l by (unfold cy; rewrite cycl_len; discriminate). reflexivity. }
  destruct (slide_start cond G C (cy st x l) (s_best st)) as (b & S1 & S2 & S3 & S4); [discriminate| |exact T0|].
  { rewrite psum_sum. unfold cy, cycl. change (sumN snd ((x, subn st x) :: cwts T (subn st) x l)) with (subn st x + sumN snd (cwts T (subn st) x l))%N. rewrite Su. lia. }
  rewrite <- W0, S1. unfold cy in S3, S4. rewrite cycl_len in S3, S4. fold (cy st x l) in S3, S4.
  exists b. split; [reflexivity|]. split; [exact S2|]. split.
  - destruct S3 as [->|(i & m & Hm & Rc)]; [apply (i_from _ B)|]. right. right. exists x, u, l, i, m. auto.
  - intros l' (_ & P' & _). assert (Q : x :: l' = x :: l) by (eapply path_fun; eauto). injection Q as ->. exact S4.
Qed.

Lemma check_ok s u : forall ts st, sinv st (u :: s) -> binv st -> incl ts (out st u) ->
  exists b, check_cycles cond G C st u ts = Some (set_best st b) /\ (b_w (s_best st) <= b_w b)%N /\ binv (set_best st b) /\
    forall x l, In x ts -> ok_cyc st x u l -> forall i m, i <= S (length l) -> m <= S (length l) -> (light T (arc (cy st x l) i m) <= b_w b)%N.
Proof.
  induction ts as [|x ts IH]; intros st I B Inc.
  - exists (s_best st). destruct st as [a1 a2 a3 a4 a5]. split; [reflexivity|]. split; [cbn; lia|]. split; [exact B|]. intros x l [].
  - destruct (investigate_ok st s x u I B) as (b & E & Lb & Fr & Cov); [apply Inc; left; reflexivity|]. cbn [check_cycles]. rewrite E.
    destruct (IH (set_best st b)) as (b' & E' & Lb' & B' & Cov'); [apply set_best_sinv; exact I|apply set_best_binv; auto|intros y Hy; apply Inc; right; exact Hy|].
    exists b'. rewrite E'. split; [reflexivity|]. cbn [s_best set_best] in Lb'. split; [lia|]. split; [exact B'|]. intros y l [<-|Iy] Oc i m Hi Hm.
    + specialize (Cov l Oc i m Hi Hm). lia.
    + apply Cov'; auto.
Qed.

(** *** the number of undiscovered vertices *)
Definition undc (st : dst) : nat := length (filter (fun x => match stt st x with Undiscovered => true | _ => false end) (seq 0 n)).
Lemma filter_len_le {A} (f g : A -> bool) l : (forall x, f x = true -> g x = true) -> length (filter f l) <= length (filter g l).
Proof. intro H. induction l as [|x l IH]; [cbn; lia|]. cbn. destruct (f x) eqn:E; [rewrite (H x E); cbn; lia|]. destruct (g x); cbn; lia. Qed.
Lemma filter_len_lt {A} (f g : A -> bool) l t : (forall x, f x = true -> g x = true) -> In t l -> f t = false -> g t = true -> length (filter f l) < length (filter g l).
Proof.
  intros H It Ft Gt. induction l as [|x l IH]; [destruct It|]. destruct It as [->|It].
  - cbn. rewrite Ft, Gt. cbn. pose proof (filter_len_le f g l H). lia.
  - cbn. specialize (IH It). destruct (f x) eqn:E; [rewrite (H x E); cbn; lia|]. destruct (g x); cbn; lia.
Qed.
Lemma undc_le st st' : ext st st' -> undc st' <= undc st.
Proof.
  intro E. apply filter_len_le. intros x H. destruct (stt st x) eqn:Q; [reflexivity| | |]; exfalso; (assert (D : disc st x) by (unfold disc; rewrite Q; discriminate)); apply (e_disc _ _ E) in D as [D _]; apply D; destruct (stt st' x); try discriminate H; reflexivity.
Qed.
Lemma undc_lt st st' t : ext st st' -> t < n -> ~ disc st t -> disc st' t -> undc st' < undc st.
Proof.
  intros E Lt Nd D. apply (filter_len_lt _ _ _ t).
  - intros x H. destruct (stt st x) eqn:Q; [reflexivity| | |]; exfalso; (assert (Dx : disc st x) by (unfold disc; rewrite Q; discriminate)); apply (e_disc _ _ E) in Dx as [Dx _]; apply Dx; destruct (stt st' x); try discriminate H; reflexivity.
  - apply in_seq. lia.
  - unfold disc in D. destruct (stt st' t); congruence.
  - destruct (stt st t) eqn:Q; [reflexivity| | |]; exfalso; apply Nd; unfold disc; rewrite Q; discriminate.
Qed.

(** *** processVertex *)
Definition proc_spec (fuel : nat) : Prop := forall st v s,
  let st1 := set_stat st v Active in
  sinv st1 (v :: s) -> binv st1 -> (forall x, anc (pf st1) x v -> x = v) -> out st1 v = [] -> undc st1 < fuel ->
  exists st', process cond G C mincut start fuel st v = Some st' /\ sinv st' s /\ binv st' /\ ext st1 st' /\ fin st' v /\
    forall x, disc st' x -> disc st1 x \/ anc (pf st') x v.

Record loop (st1 st : dst) (v : nat) (s : list nat) (pre : list half) (cw : N) : Prop := mk_loop {
  l_sinv : sinv st (v :: s);
  l_binv : binv st;
  l_ext : ext st1 st;
  l_new : forall x, disc st x -> disc st1 x \/ anc (pf st) x v;
  l_sum : exists L, NoDup L /\ (forall y, In y L <-> anc (pf st) y v /\ y <> v) /\ cw = sumN vw L;
  l_kids : forall x wx, pf st x = Some v -> edgew v x mincut -> sf st x = Some wx -> (light T wx <= b_w (s_best st))%N;
  l_pre : forall u w r, In (u, w, r) pre -> disc st u /\ (anc (pf st) v u -> pf st v <> Some u -> In v (out st u))
}.

Lemma loop_snoc st1 st v s pre cw u w r : loop st1 st v s pre cw -> disc st u -> (anc (pf st) v u -> pf st v <> Some u -> In v (out st u)) -> loop st1 st v s (pre ++ [(u, w, r)]) cw.
Proof.
  intros [A1 A2 A3 A4 A5 A6 A7] D O. constructor; auto. intros u' w' r' I. apply in_app_or in I as [I|[I|[]]]; [apply (A7 _ _ _ I)|]. injection I as <- <- <-. auto.
Qed.

Lemma loop_pre_ext st1 st st' v s pre cw : loop st1 st v s pre cw -> ext st st' ->
  forall u w r, In (u, w, r) pre -> disc st' u /\ (anc (pf st') v u -> pf st' v <> Some u -> In v (out st' u)).
Proof.
  intros Lo E u w r I. destruct (l_pre _ _ _ _ _ _ Lo u w r I) as [D O]. assert (Dv : disc st v) by (apply act_disc, (i_stk _ _ (l_sinv _ _ _ _ _ _ Lo)); left; reflexivity).
  destruct (e_disc _ _ E v Dv) as [_ Pv]. split; [apply (e_disc _ _ E u D)|]. intros A P. apply (e_out _ _ E). apply O; [|rewrite <- Pv; exact P].
  apply (ext_anc st (v :: s) st' v u (l_sinv _ _ _ _ _ _ Lo) E Dv). exact A.
Qed.

Lemma mark_loop st1 st v s pre cw t w r : loop st1 st v s pre cw -> sinv (mark_cycle st t v) (v :: s) -> binv (mark_cycle st t v) -> ext st (mark_cycle st t v) ->
  (forall x, stt (mark_cycle st t v) x = stt st x \/ (act st x /\ act (mark_cycle st t v) x)) -> act st t -> In v (out (mark_cycle st t v) t) -> loop st1 (mark_cycle st t v) v s (pre ++ [(t, w, r)]) cw.
Proof.
  intros Lo I' B' E' Sx At O. assert (Q : forall x, disc (mark_cycle st t v) x -> disc st x). { intros x D. destruct (Sx x) as [Q|[Q _]]; [unfold disc in *; congruence|apply act_disc; exact Q]. }
  apply loop_snoc; [|apply (e_disc _ _ E' t); apply act_disc; exact At|auto]. constructor; auto.
  - apply (ext_trans _ st); [apply (l_ext _ _ _ _ _ _ Lo)|exact E'].
  - intros x D. apply (l_new _ _ _ _ _ _ Lo x). apply Q. exact D.
  - apply (l_sum _ _ _ _ _ _ Lo).
  - apply (l_kids _ _ _ _ _ _ Lo).
  - apply (loop_pre_ext st1 st _ v s pre cw Lo E').
Qed.
Lemma visit_ok fuel st1 v s : proc_spec fuel -> undc st1 < S fuel -> v < n -> forall row pre st cw,
  nth v R [] = pre ++ row -> loop st1 st v s pre cw ->
  exists st' cw', visit_edges cond G C mincut (process cond G C mincut start fuel) v row (length pre) st cw = Some (st', cw') /\ loop st1 st' v s (nth v R []) cw'.
Proof.
  intros PS Un Lv. induction row as [|[[t w] r] row IH]; intros pre st cw Er Lo.
  - exists st, cw. split; [reflexivity|]. rewrite Er, app_nil_r. exact Lo.
  - assert (Er' : nth v R [] = (pre ++ [(t, w, r)]) ++ row) by (rewrite <- app_assoc; exact Er).
    assert (Len : length (pre ++ [(t, w, r)]) = S (length pre)) by (rewrite app_length; cbn; lia).
    assert (Ew : edgew v t w) by (exists r; rewrite Er; apply in_or_app; right; left; reflexivity).
    assert (Ed : edge v t) by (exists w; exact Ew). destruct (edge_sym _ _ Ed) as (Ed' & _ & Lt & Nvt).
    pose proof (l_sinv _ _ _ _ _ _ Lo) as I. assert (Av : act st v) by (apply (i_stk _ _ I); left; reflexivity).
    destruct (i_len _ _ I) as (L1 & _). cbn [visit_edges].
    assert (Se : nth_error (s_stat st) t = Some (stt st t)) by (apply nth_error_nth'; lia). rewrite Se. destruct (stt st t) eqn:St.
    + (* undiscovered *)
      assert (Ut : ~ disc st t) by (unfold disc; congruence). set (st2 := discover st t v).
      pose proof (dc_sinv st s t v I Ut Lt Ed) as I2. pose proof (dc_ext st s t v I Ut Lt) as E2. fold st2 in I2, E2.
      destruct (PS (set_par st t v) t (v :: s)) as (st' & Pr & I' & B' & E' & Ft & New).
      * exact I2.
      * apply (dc_binv st s t v I Ut Lt). apply (l_binv _ _ _ _ _ _ Lo).
      * apply (dc_fresh st s t v I Ut Lt).
      * apply (dc_out st s t v I Ut).
      * fold (discover st t v). fold st2. pose proof (undc_le st1 st (l_ext _ _ _ _ _ _ Lo)). pose proof (undc_lt st st2 t E2 Lt Ut). assert (disc st2 t) by (apply (dc_disc st s t v I Lt); auto). specialize (H0 H1). lia.
      * fold (discover st t v) in E', New. fold st2 in E', New. rewrite Pr. destruct (i_sub _ _ I' t Ft) as (Lt' & [NdT HT'] & Sft). fold (sf st' t). rewrite Sft.
        pose proof (sub_le st' (v :: s) t _ I' Ft Sft) as LeT. rewrite (lighter_light cond G C _ LeT).
        assert (Et : ext st st') by (eapply ext_trans; eauto).
        assert (Pt : pf st' t = Some v). { destruct (e_disc _ _ E' t) as [_ Q]; [apply (dc_disc st s t v I Lt); auto|]. rewrite Q. unfold st2. rewrite (dc_pf st s t v I Lt), Nat.eqb_refl. reflexivity. }
        assert (Dv' : disc st' v) by (apply (e_disc _ _ Et v); apply act_disc; exact Av).
        assert (New' : forall x, disc st' x -> disc st x \/ anc (pf st') x t).
        { intros x D. destruct (New x D) as [Q|Q]; [|right; exact Q]. apply (dc_disc st s t v I Lt) in Q as [Q|Q]; [left; exact Q|]. right. subst x. apply anc_refl. }
        assert (NoVT : ~ anc (pf st') v t). { apply (par_strict (pf st') start t v); [apply (i_root _ _ I')|apply (i_anc _ _ I' v Dv')|exact Pt]. }
        set (l := light T (sumN vw Lt')). set (b3 := if ((b_w (s_best st') <? l) && (w =? mincut))%N then mk_best false v (length pre) (b_n2 (s_best st')) (b_e2 (s_best st')) l else s_best st').
        assert (Q3 : tree_edge mincut st' v (length pre) w l = set_best st' b3). { unfold tree_edge, b3. destruct (_ && _)%bool; [reflexivity|]. destruct st'; reflexivity. }
        rewrite Q3. assert (Lb3 : (b_w (s_best st') <= b_w b3)%N). { unfold b3. destruct (N.ltb_spec (b_w (s_best st')) l); [|cbn; lia]. destruct (w =? mincut)%N; cbn; lia. }
        assert (Fr3 : from st' b3).
        { unfold b3. destruct (_ && _)%bool eqn:Q; [|apply (i_from _ B')]. apply andb_true_iff in Q as [_ Q]. apply N.eqb_eq in Q. right. left. split; [reflexivity|]. exists t, r, (sumN vw Lt'). cbn [b_n b_e b_w].
          split; [|auto]. unfold slot. rewrite Er, nth_error_app2 by lia. rewrite Nat.sub_diag. cbn. rewrite Q. reflexivity. }
        assert (Lo' : loop st1 (set_best st' b3) v s (pre ++ [(t, w, r)]) (cw + sumN vw Lt')).
        { constructor.
          - apply set_best_sinv. exact I'.
          - apply set_best_binv; auto.
          - apply (ext_trans _ st'); [|apply set_best_ext; exact Lb3]. apply (ext_trans _ st); [apply (l_ext _ _ _ _ _ _ Lo)|exact Et].
          - intros x D. change (disc st' x) in D. change (pf (set_best st' b3)) with (pf st'). destruct (New' x D) as [Q|Q].
            + destruct (l_new _ _ _ _ _ _ Lo x Q) as [Q'|Q']; [left; exact Q'|]. right. apply (ext_anc st (v :: s) st' x v I Et Q). exact Q'.
            + right. eapply anc_trans; [exact Q|]. apply anc_par. exact Pt.
          - destruct (l_sum _ _ _ _ _ _ Lo) as (L & Nd & HL & ->). exists (L ++ Lt'). change (pf (set_best st' b3)) with (pf st'). split; [|split].
            + apply NoDup_app_in; auto. intros y Y1 Y2. apply HL in Y1 as [Y1 _]. apply HT' in Y2.
              assert (Dy : disc st y) by (apply (anc_disc_low st (v :: s) y v I (act_disc _ _ Av) Y1)).
              apply (ext_anc st (v :: s) st' y t I Et Dy) in Y2. apply Ut. apply (anc_disc st (v :: s) y t I Dy Y2).
            + intro y. split.
              * intro Q. apply in_app_or in Q as [Q|Q].
                -- apply HL in Q as [Q1 Q2]. split; [|exact Q2]. apply (ext_anc st (v :: s) st' y v I Et); auto. apply (anc_disc_low st (v :: s) y v I (act_disc _ _ Av) Q1).
                -- apply HT' in Q. split; [eapply anc_trans; [exact Q|apply anc_par; exact Pt]|]. intros ->. contradiction.
              * intros [Q1 Q2]. apply in_or_app. assert (D : disc st' y) by (apply (anc_disc_low st' (v :: s) y v I' Dv' Q1)). destruct (New' y D) as [Q|Q].
                -- left. apply HL. split; [|exact Q2]. apply (ext_anc st (v :: s) st' y v I Et Q). exact Q1.
                -- right. apply HT'. exact Q.
            + rewrite sumN_app. reflexivity.
          - intros x wx Px Ex Sx. change (pf st' x = Some v) in Px. change (sf st' x = Some wx) in Sx. cbn [s_best set_best].
            destruct (Nat.eq_dec x t) as [->|Nx].
            + assert (wx = sumN vw Lt') by congruence. subst wx. assert (w = mincut) by (eapply edgew_fun; eauto). subst w. unfold b3. rewrite N.eqb_refl, andb_true_r. fold l. destruct (N.ltb_spec (b_w (s_best st')) l); cbn; lia.
            + assert (Dx : disc st' x) by (apply (i_par _ _ I') in Px; tauto). destruct (New' x Dx) as [Q|Q].
              * destruct (e_disc _ _ Et x Q) as [_ Q']. rewrite Q' in Px. assert (Fx : fin st x). { apply (below_fin st v s x I); [apply anc_par; exact Px|]. intros ->. apply (par_strict (pf st) start v v (i_root _ _ I)); auto; [apply (i_anc _ _ I v Q)|apply anc_refl]. }
                destruct (e_fin _ _ Et x Fx) as (_ & Q2 & _). rewrite Q2 in Sx. pose proof (l_kids _ _ _ _ _ _ Lo x wx Px Ex Sx). pose proof (e_best _ _ Et). lia.
              * exfalso. apply NoVT. apply anc_inv in Q as [->|(z & Pz & Q)]; [congruence|]. rewrite Px in Pz. injection Pz as <-. exact Q.
          - assert (Es : ext st (set_best st' b3)) by (apply (ext_trans _ st'); [exact Et|apply set_best_ext; exact Lb3]).
            intros u w' r' Iu. apply in_app_or in Iu as [Iu|[Iu|[]]]; [apply (loop_pre_ext st1 st (set_best st' b3) v s pre cw Lo Es u w' r' Iu)|]. injection Iu as <- <- <-.
            split; [exact (fin_disc _ _ Ft)|]. intro A. exfalso. apply NoVT. exact A. }
        rewrite <- Len. apply (IH _ _ _ Er' Lo').
    + (* active *)
      assert (At : act st t) by (left; exact St). assert (In t (v :: s)) as It by (apply (i_stk _ _ I); exact At). destruct It as [It|It]; [congruence|].
      rewrite <- Len. fold (pf st v). 
      destruct (pf st v) as [p|] eqn:Pv; [destruct (Nat.eqb_spec p t) as [->|Np]|].
      * apply (IH _ _ _ Er'). apply loop_snoc; auto; [apply act_disc; exact At|]. intros _ Q. congruence.
      * destruct (mark_ok st s v t I (l_binv _ _ _ _ _ _ Lo) It Ed) as (I' & B' & E' & O' & S'); [rewrite Pv; congruence|]. apply (IH _ _ _ Er'). apply (mark_loop st1 st); auto.
      * destruct (mark_ok st s v t I (l_binv _ _ _ _ _ _ Lo) It Ed) as (I' & B' & E' & O' & S'); [rewrite Pv; congruence|]. apply (IH _ _ _ Er'). apply (mark_loop st1 st); auto.
    + assert (At : act st t) by (right; exact St). assert (In t (v :: s)) as It by (apply (i_stk _ _ I); exact At). destruct It as [It|It]; [congruence|].
      rewrite <- Len. fold (pf st v). 
      destruct (pf st v) as [p|] eqn:Pv; [destruct (Nat.eqb_spec p t) as [->|Np]|].
      * apply (IH _ _ _ Er'). apply loop_snoc; auto; [apply act_disc; exact At|]. intros _ Q. congruence.
      * destruct (mark_ok st s v t I (l_binv _ _ _ _ _ _ Lo) It Ed) as (I' & B' & E' & O' & S'); [rewrite Pv; congruence|]. apply (IH _ _ _ Er'). apply (mark_loop st1 st); auto.
      * destruct (mark_ok st s v t I (l_binv _ _ _ _ _ _ Lo) It Ed) as (I' & B' & E' & O' & S'); [rewrite Pv; congruence|]. apply (IH _ _ _ Er'). apply (mark_loop st1 st); auto.
    + (* finished *)
      rewrite <- Len. apply (IH _ _ _ Er'). apply loop_snoc; auto; [unfold disc; congruence|]. intros A. exfalso. apply (act_fin st v Av). apply (fin_down st (v :: s) v t I St A).
Qed.

Lemma nth_error_row v : v < n -> nth_error R v = Some (nth v R []).
Proof. intro H. apply nth_error_nth'. exact H. Qed.

Lemma process_ok fuel : proc_spec fuel.
Proof.
  induction fuel as [|fuel PS]; intros st v s st1 I B Fresh Ov Un; [lia|].
  assert (Av : act st1 v) by (apply (i_stk _ _ I); left; reflexivity). assert (Dv : disc st1 v) by (apply act_disc; exact Av). assert (Lv : v < n) by (apply (disc_lt st1 (v :: s)); auto).
  cbn [process]. rewrite (nth_error_row v Lv). fold st1. cbv zeta.
  assert (NoKid : forall x, pf st1 x = Some v -> False).
  { intros x Px. assert (x = v) by (apply Fresh; apply anc_par; exact Px). subst x. apply (par_strict (pf st1) start v v (i_root _ _ I)); auto; [apply (i_anc _ _ I v Dv)|apply anc_refl]. }
  destruct ((length (nth v R []) =? 1) && negb (v =? start)) eqn:Leaf.
  - apply andb_true_iff in Leaf as [L1 Ns]. apply Nat.eqb_eq in L1. apply negb_true_iff, Nat.eqb_neq in Ns.
    destruct (nth v R []) as [|[[h w] r] [|? ?]] eqn:Er; try discriminate L1.
    assert (Ph : pf st1 v = Some h).
    { pose proof (i_anc _ _ I v Dv) as A. apply anc_inv in A as [A|(p & Pp & A)]; [contradiction|]. rewrite Pp. f_equal. apply (i_par _ _ I) in Pp as (_ & _ & Ep). apply edge_sym in Ep as ((w' & r' & Ip) & _). rewrite Er in Ip. destruct Ip as [Ip|[]]. congruence. }
    assert (He : forall u, edge v u -> u = h). { intros u (w' & r' & Iu). rewrite Er in Iu. destruct Iu as [Iu|[]]. congruence. }
    assert (Sv : sumN vw [v] = vw v) by (unfold sumN; cbn; lia).
    destruct (finish_ok st1 s v [v] I B) as (I' & B' & E' & F').
    + intros u Eu. rewrite (He u Eu). split; [apply (i_par _ _ I) in Ph; tauto|]. split; [left; apply anc_par; exact Ph|]. intros _ Q. congruence.
    + split; [constructor; [intros []|constructor]|]. intro y. split; [intros [<-|[]]; apply anc_refl|]. intro A. left. symmetry. apply Fresh. exact A.
    + intros x wx Px. exfalso. apply (NoKid x Px).
    + intros x l (O & _). rewrite Ov in O. destruct O.
    + rewrite Sv in *. exists (finish st1 v (vw v)). split; [reflexivity|]. split; [exact I'|]. split; [exact B'|]. split; [exact E'|]. split; [exact F'|].
      intros x D. left. revert D. unfold disc, stt, finish. cbn. destruct (i_len _ _ I) as (Ls & _). cbn in Ls. intro D. destruct (Nat.eq_dec x v) as [->|N]; [exact Dv|]. rewrite nth_upd_neq in D by auto. exact D.
  - destruct (visit_ok fuel st1 v s PS Un Lv (nth v R []) [] st1 0%N eq_refl) as (st2 & cw & V & Lo).
    + constructor; auto.
      * apply ext_refl.
      * exists []. split; [constructor|]. split; [|reflexivity]. intro y. split; [intros []|]. intros [A N]. apply N. apply Fresh. exact A.
      * intros x wx Px. exfalso. apply (NoKid x Px).
      * intros u w r [].
    + cbn [length] in V. rewrite V. pose proof (l_sinv _ _ _ _ _ _ Lo) as I2. pose proof (l_binv _ _ _ _ _ _ Lo) as B2. pose proof (l_ext _ _ _ _ _ _ Lo) as E2.
      assert (Ck : exists b, (match nth v (s_stat st2) Undiscovered with OnCycle => check_cycles cond G C st2 v (nth v (s_out st2) []) | _ => Some st2 end) = Some (set_best st2 b) /\ (b_w (s_best st2) <= b_w b)%N /\ binv (set_best st2 b) /\
        forall x l, ok_cyc st2 x v l -> forall i m, i <= S (length l) -> m <= S (length l) -> (light T (arc (cy st2 x l) i m) <= b_w b)%N).
      { assert (A2 : act st2 v) by (apply (i_stk _ _ I2); left; reflexivity).
        assert (Same : stt st2 v <> OnCycle -> exists b, Some st2 = Some (set_best st2 b) /\ (b_w (s_best st2) <= b_w b)%N /\ binv (set_best st2 b) /\ forall x l, ok_cyc st2 x v l -> forall i m, i <= S (length l) -> m <= S (length l) -> (light T (arc (cy st2 x l) i m) <= b_w b)%N).
        { intro Q. exists (s_best st2). split; [destruct st2; reflexivity|]. split; [lia|]. split; [destruct st2; exact B2|]. intros x l (O & _). exfalso. apply Q. apply (i_cyc _ _ I2 v A2). intro Z. rewrite Z in O. destruct O. }
        fold (stt st2 v). fold (out st2 v). destruct (stt st2 v) eqn:S2; try (apply Same; congruence).
        destruct (check_ok s v (out st2 v) st2 I2 B2 (incl_refl _)) as (b & Q1 & Q2 & Q3 & Q4). exists b. split; [exact Q1|]. split; [exact Q2|]. split; [exact Q3|]. intros x l Oc. apply Q4; auto. apply Oc. }
      destruct Ck as (b & -> & Lb & B3 & Cov). set (st3 := set_best st2 b) in *. assert (I3 : sinv st3 (v :: s)) by (apply set_best_sinv; exact I2).
      destruct (l_sum _ _ _ _ _ _ Lo) as (L & Nd & HL & ->).
      destruct (finish_ok st3 s v (v :: L) I3 B3) as (I' & B' & E' & F').
      * intros u Eu. destruct Eu as (w & r & Iu). destruct (l_pre _ _ _ _ _ _ Lo u w r Iu) as [Du Ou]. split; [exact Du|]. split; [|exact Ou].
        destruct (disc_cases _ _ Du) as [A|F]; [left; apply (chain_anc _ _ s); [apply (i_chain _ _ I2)|apply (i_stk _ _ I2); exact A]|].
        destruct (i_edge _ _ I2 u v F) as [_ A]; [|tauto]. apply (edge_sym v u). exists w, r. exact Iu.
      * split; [constructor; [|exact Nd]; intro Q; apply HL in Q as [_ Q]; congruence|]. intro y. split.
        -- intros [<-|Q]; [apply anc_refl|]. apply HL in Q as [Q _]. exact Q.
        -- intro A. destruct (Nat.eq_dec y v) as [->|N]; [left; reflexivity|]. right. apply HL. split; [exact A|exact N].
      * intros x wx Px Ex Sx. pose proof (l_kids _ _ _ _ _ _ Lo x wx Px Ex Sx). cbn. lia.
      * intros x l Oc. apply Cov. exact Oc.
      * replace (sumN vw L + vw v)%N with (sumN vw (v :: L)) by (unfold sumN; cbn; lia).
        exists (finish st3 v (sumN vw (v :: L))). split; [reflexivity|]. split; [exact I'|]. split; [exact B'|]. split.
        { apply (ext_trans _ st2); [exact E2|]. apply (ext_trans _ st3); [apply set_best_ext; exact Lb|exact E']. }
        split; [exact F'|]. intros x D. assert (D2 : disc st2 x). { revert D. unfold disc, stt, finish. cbn. intro D. destruct (Nat.eq_dec x v) as [->|N]; [|rewrite nth_upd_neq in D by auto; exact D]. apply (e_disc _ _ E2 v Dv). }
        apply (l_new _ _ _ _ _ _ Lo x D2).
Qed.

(** *** the whole search *)
Record dfs_done (st : dst) : Prop := mk_done { d_sinv : sinv st []; d_binv : binv st; d_start : fin st start }.

Lemma nth_repeat' {A} (x d : A) k i : nth i (repeat x k) d = if i <? k then x else d.
Proof. revert i. induction k as [|k IH]; intros [|i]; cbn; auto. rewrite IH. reflexivity. Qed.

Lemma dfs_ok : exists st, process cond G C mincut start n (dst0 n) start = Some st /\ dfs_done st.
Proof.
  set (st1 := set_stat (dst0 n) start Active).
  assert (S1 : forall y, stt st1 y = if y =? start then Active else Undiscovered).
  { intro y. unfold st1. change (stt (set_stat (dst0 n) start Active) y) with (nth y (upd (s_stat (dst0 n)) start Active) Undiscovered). rewrite stt_upd; auto; [|cbn; apply repeat_length]. destruct (y =? start); [reflexivity|]. unfold stt. cbn. rewrite nth_repeat'. destruct (y <? n); reflexivity. }
  assert (P1 : forall y, pf st1 y = None). { intro y. unfold pf, st1. cbn. rewrite nth_repeat'. destruct (y <? n); reflexivity. }
  assert (O1 : forall y, out st1 y = []). { intro y. unfold out, st1. cbn. rewrite nth_repeat'. destruct (y <? n); reflexivity. }
  assert (D1 : forall y, disc st1 y <-> y = start). { intro y. unfold disc. rewrite S1. destruct (Nat.eqb_spec y start); split; intro; try congruence; auto. }
  assert (A1 : forall x y, anc (pf st1) x y -> x = y). { intros x y A. apply anc_inv in A as [A|(z & E & _)]; [exact A|]. rewrite P1 in E. discriminate E. }
  assert (F1 : forall y, ~ fin st1 y). { intros y. unfold fin. rewrite S1. destruct (y =? start); discriminate. }
  destruct (process_ok n (dst0 n) start []) as (st' & Pr & I' & B' & _ & F' & _).
  - fold st1. constructor.
    + unfold st1. cbn. rewrite upd_length, !repeat_length. auto.
    + intro x. unfold act. rewrite S1. destruct (Nat.eqb_spec x start) as [->|N]; split; intro Q; [left; reflexivity|left; reflexivity|destruct Q; discriminate|destruct Q as [Q|[]]; congruence].
    + intros x p E. rewrite P1 in E. discriminate E.
    + apply P1.
    + split; [reflexivity|apply P1].
    + intros x p F. destruct (F1 p F).
    + intros x D. apply D1 in D. subst x. apply anc_refl.
    + intros x u F. destruct (F1 x F).
    + intros x F. destruct (F1 x F).
    + intros x u F. destruct (F1 x F).
    + intros x u Q. rewrite O1 in Q. destruct Q.
    + intros u _ Q. rewrite O1 in Q. congruence.
  - fold st1. constructor.
    + intros p x wx F. destruct (F1 p F).
    + intros u x l F. destruct (F1 u F).
    + left. reflexivity.
  - fold st1. intros x. apply A1.
  - apply O1.
  - fold st1. assert (Al : forall l : list nat, filter (fun _ => true) l = l) by (induction l as [|a l IH]; [reflexivity|cbn; rewrite IH; reflexivity]).
    assert (Q : undc st1 < length (filter (fun _ => true) (seq 0 n))); [|rewrite Al, seq_length in Q; exact Q].
    apply (filter_len_lt _ _ _ start); auto; [apply in_seq; lia|]. rewrite S1, Nat.eqb_refl. reflexivity.
  - exists st'. split; [exact Pr|]. constructor; auto.
Qed.
End Dfs.
