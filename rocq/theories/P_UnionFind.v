(* P_UnionFind.v - proofs about M_UnionFind. *)
From Verif Require Export M_UnionFind SpecRel.

(* x reaches root r along parent pointers *)
Inductive Root (p : list nat) : nat -> nat -> Prop :=
| Root_here x : x < length p -> nth x p 0 = x -> Root p x x
| Root_step x r : x < length p -> nth x p 0 <> x -> Root p (nth x p 0) r -> Root p x r.

Definition wf (p rk : list nat) : Prop :=
  length rk = length p /\
  (forall x, x < length p -> nth x p 0 < length p) /\
  (forall x, x < length p -> nth x p 0 <> x -> nth x rk 0 < nth (nth x p 0) rk 0).

Lemma Root_fun p x r r' : Root p x r -> Root p x r' -> r = r'.
Proof.
  intros H. revert r'. induction H; intros r' H'; inversion H'; subst; congruence || auto.
Qed.

Lemma Root_lt p x r : Root p x r -> x < length p /\ r < length p /\ nth r p 0 = r.
Proof. induction 1; intuition. Qed.

Lemma Root_idem p x r : Root p x r -> Root p r r.
Proof. intros H. apply Root_lt in H as (_ & ? & ?). now constructor. Qed.

Lemma Root_total p rk : wf p rk -> forall x, x < length p -> exists r, Root p x r.
Proof.
  intros (Hl & Hr & Hrk).
  assert (Hb : exists B, forall x, x < length p -> nth x rk 0 <= B).
  { rewrite <- Hl. clear. induction rk as [|a rk [B HB]].
    - exists 0. simpl. lia.
    - exists (max a B). intros [|x] Hx; simpl in *; [lia|]. specialize (HB x). lia. }
  destruct Hb as [B HB].
  intros x. remember (B - nth x rk 0) as m eqn:Hm. revert x Hm.
  induction m as [m IH] using lt_wf_ind. intros x Hm Hx.
  destruct (Nat.eq_dec (nth x p 0) x) as [He|Hne].
  - exists x. now constructor.
  - specialize (Hrk x Hx Hne). pose proof (HB (nth x p 0) (Hr x Hx)).
    destruct (IH (B - nth (nth x p 0) rk 0)) with (x := nth x p 0) as [r Hroot]; auto; [lia|].
    exists r. now apply Root_step.
Qed.

Lemma Root_rank p rk x r : wf p rk -> Root p x r -> x = r \/ nth x rk 0 < nth r rk 0.
Proof.
  intros Hwf H. induction H; [auto|right].
  destruct Hwf as (_ & _ & Hrk). specialize (Hrk x H H0). destruct IHRoot as [<-|]; lia.
Qed.

(* pointing x directly at its root changes nothing *)
Lemma compress_Root p rk x r : wf p rk -> Root p x r ->
  wf (upd p x r) rk /\ forall y s, Root p y s -> Root (upd p x r) y s.
Proof.
  intros Hwf Hx. pose proof Hwf as (Hl & Hr & Hrk).
  pose proof (Root_lt _ _ _ Hx) as (Hxl & Hrl & Hrr).
  split.
  - split; [now rewrite upd_length|]. rewrite upd_length. split; intros y Hy; rewrite nth_upd;
      destruct (Nat.eqb_spec y x) as [->|Hne]; simpl.
    + destruct (x <? length p) eqn:E; [auto|apply Hr; auto].
    + apply Hr; auto.
    + assert (Hlt : (x <? length p) = true) by now apply Nat.ltb_lt. rewrite Hlt; simpl.
      intros Hn. destruct (Root_rank _ _ _ _ Hwf Hx); [congruence|auto].
    + apply Hrk; auto.
  - intros y s Hys. induction Hys as [y Hy He|y s Hy Hne Hys IH].
    + apply Root_here; [now rewrite upd_length|].
      rewrite nth_upd. destruct (Nat.eqb_spec y x) as [->|]; simpl; [|auto].
      destruct (x <? length p) eqn:E; [|auto].
      inversion Hx; subst; congruence.
    + destruct (Nat.eq_dec y x) as [->|Hyx].
      * assert (r = s) by (apply (Root_fun p x); auto; now apply Root_step). subst s.
        apply Root_step; rewrite ?upd_length; auto.
        -- rewrite nth_upd_eq by auto. intros ->. congruence.
        -- rewrite nth_upd_eq by auto.
           apply Root_here; rewrite ?upd_length; auto. rewrite nth_upd_neq; auto.
           intros ->. congruence.
      * apply Root_step; rewrite ?upd_length; auto; rewrite nth_upd_neq; auto.
Qed.

Lemma compress_Root_iff p rk x r : wf p rk -> Root p x r ->
  forall y s, Root (upd p x r) y s <-> Root p y s.
Proof.
  intros Hwf Hx y s. destruct (compress_Root _ _ _ _ Hwf Hx) as [Hwf' Hfwd].
  split; [|apply Hfwd]. intros H.
  pose proof (Root_lt _ _ _ H) as (Hy & _). rewrite upd_length in Hy.
  destruct (Root_total _ _ Hwf y Hy) as [s' Hs'].
  rewrite (Root_fun _ _ _ _ H (Hfwd _ _ Hs')). exact Hs'.
Qed.

Lemma find_fuel_ok rk B : forall fuel p x,
  wf p rk -> (forall y, y < length p -> nth y rk 0 <= B) -> x < length p ->
  B - nth x rk 0 < fuel ->
  exists p' r, find_fuel fuel p x = Some (p', r) /\ Root p x r /\
    wf p' rk /\ length p' = length p /\ (forall y s, Root p' y s <-> Root p y s) /\
    (forall y, y < length p -> (nth y p' 0 = y <-> nth y p 0 = y)).
Proof.
  induction fuel as [|fuel IH]; intros p x Hwf HB Hx Hf; [lia|].
  simpl. rewrite (nth_error_nth_lt p x 0 Hx).
  destruct (Nat.eqb_spec (nth x p 0) x) as [He|Hne].
  - exists p, x. repeat split; auto; try tauto; try apply Hwf. now constructor.
  - pose proof Hwf as (Hl & Hr & Hrk). specialize (Hrk x Hx Hne).
    destruct (IH p (nth x p 0) Hwf HB (Hr x Hx)) as (p' & r & -> & Hroot & Hwf' & Hlen & Hiff & Hself).
    { pose proof (HB _ (Hr x Hx)). lia. }
    assert (HRx : Root p x r) by now apply Root_step.
    assert (HRx' : Root p' x r) by now apply Hiff.
    destruct (compress_Root _ _ _ _ Hwf' HRx') as [Hwf'' _].
    exists (upd p' x r), r. split; [reflexivity|]. split; [exact HRx|]. split; [exact Hwf''|].
    split; [now rewrite upd_length|]. split.
    + intros y s. rewrite (compress_Root_iff _ _ _ _ Hwf' HRx'). apply Hiff.
    + intros y Hy. rewrite nth_upd. destruct (Nat.eqb_spec y x) as [->|]; simpl; [|auto].
      destruct (x <? length p') eqn:E; [|auto]. split; [|congruence].
      intros ->. apply Root_lt in HRx. tauto.
Qed.

(* ---------------- the invariant of a history ---------------- *)

Definition nroots (p : list nat) : nat := length (filter (fun x => nth x p 0 =? x) (seq 0 (length p))).

Definition pairs_of (os : list uf_op) : list (nat * nat) :=
  flat_map (fun o => match o with OUnion a b => [(a, b)] | OFind _ => [] end) os.

Definition op_lt (n : nat) (o : uf_op) : Prop :=
  match o with OUnion a b => a < n /\ b < n | OFind a => a < n end.

Record inv (n : nat) (ps : list (nat * nat)) (u : uf) : Prop := mk_inv {
  inv_len : length (parent u) = n;
  inv_pairs : forall x y, In (x, y) ps -> x < n /\ y < n;
  inv_wf : wf (parent u) (rank u);
  inv_conn : forall x y, x < n -> y < n ->
     (conn ps x y <-> exists r, Root (parent u) x r /\ Root (parent u) y r);
  inv_cnt : cnt u = nroots (parent u);
  inv_rank : forall x, x < n -> nth x (rank u) 0 + cnt u <= n }.

Lemma conn_nil x y : conn [] x y -> x = y.
Proof. apply conn_in_relation; try congruence. simpl; easy. Qed.

Lemma filter_all {A} (f : A -> bool) l : (forall x, In x l -> f x = true) -> filter f l = l.
Proof. induction l as [|a l IH]; simpl; intros H; [auto|]. rewrite H by auto. f_equal; auto. Qed.

Lemma inv_init n : inv n [] (uf_init n).
Proof.
  assert (Hn : forall x, x < n -> nth x (seq 0 n) 0 = x) by (intros; now rewrite seq_nth).
  constructor; simpl.
  - apply seq_length.
  - easy.
  - split; [now rewrite repeat_length, seq_length|]. rewrite seq_length.
    split; intros x Hx; rewrite Hn; auto. congruence.
  - intros x y Hx Hy. split.
    + intros H%conn_nil; subst y. exists x. split; constructor; rewrite ?seq_length; auto.
    + intros (r & H1 & H2). 
      assert (forall z s, z < n -> Root (seq 0 n) z s -> z = s).
      { intros z s Hz H. inversion H; subst; auto. rewrite Hn in *; congruence. }
      rewrite (H x r), (H y r) by auto. apply conn_refl.
  - unfold nroots. rewrite seq_length, filter_all, seq_length; auto.
    intros x Hx%in_seq. apply Nat.eqb_eq, Hn. lia.
  - intros x Hx. rewrite nth_repeat_lt; lia.
Qed.

Lemma nroots_pos p rk : wf p rk -> 0 < length p -> 0 < nroots p.
Proof.
  intros Hwf Hp. destruct (Root_total _ _ Hwf 0 Hp) as [r Hr].
  apply Root_lt in Hr as (_ & Hr & He).
  unfold nroots. destruct (filter _ _) eqn:E; [|simpl; lia].
  assert (In r []) as []. rewrite <- E. apply filter_In. split; [apply in_seq; lia|now apply Nat.eqb_eq].
Qed.

Lemma nroots_ext p p' : length p' = length p ->
  (forall y, y < length p -> (nth y p' 0 = y <-> nth y p 0 = y)) -> nroots p' = nroots p.
Proof.
  intros Hl H. unfold nroots. rewrite Hl. f_equal. apply filter_ext_in.
  intros y Hy%in_seq. specialize (H y ltac:(lia)).
  destruct (Nat.eqb_spec (nth y p' 0) y), (Nat.eqb_spec (nth y p 0) y); tauto.
Qed.

Lemma filter_remove_one (f g : nat -> bool) a l : NoDup l -> In a l -> f a = true ->
  g a = false -> (forall x, x <> a -> g x = f x) -> S (length (filter g l)) = length (filter f l).
Proof.
  intros Hnd Hin Hf Hg Hfg. induction l as [|b l IH]; [easy|].
  apply NoDup_cons_iff in Hnd as [Hb Hnd]. destruct (Nat.eq_dec a b) as [<-|Hne].
  - simpl. rewrite Hf, Hg. simpl. f_equal. f_equal. apply filter_ext_in.
    intros x Hx. apply Hfg. intros ->. contradiction.
  - destruct Hin as [->|Hin]; [easy|]. specialize (IH Hnd Hin). simpl.
    rewrite Hfg by auto. destruct (f b); simpl; lia.
Qed.

Lemma find_inv n ps u x : inv n ps u -> x < n ->
  exists u' r, uf_find u x = Some (u', r) /\ inv n ps u' /\ rank u' = rank u /\ cnt u' = cnt u /\
    Root (parent u) x r /\ (forall y s, Root (parent u') y s <-> Root (parent u) y s).
Proof.
  intros [Hlen Hps Hwf Hconn Hcnt Hrank] Hx.
  assert (Hpos : 0 < cnt u) by (rewrite Hcnt; eapply nroots_pos; eauto; lia).
  destruct (find_fuel_ok (rank u) (n - cnt u) (length (parent u)) (parent u) x)
    as (p' & r & Hf & Hr & Hwf' & Hl' & Hiff & Hself); auto; try lia.
  { intros y Hy. specialize (Hrank y). lia. }
  exists (mk_uf p' (rank u) (cnt u)), r. unfold uf_find. rewrite Hf.
  split; [reflexivity|]. split; [|auto].
  constructor; simpl; auto; [congruence| |].
  - intros a b Ha Hb. rewrite Hconn by auto. split; intros (s & H1 & H2); exists s; rewrite ?Hiff in *; auto.
  - rewrite Hcnt. symmetry. apply nroots_ext; auto.
Qed.

(* linking root a under root b *)
Lemma link_Root p rk a b : wf p rk -> a < length p -> b < length p -> a <> b ->
  nth a p 0 = a -> nth b p 0 = b ->
  forall y s, Root p y s -> Root (upd p a b) y (if s =? a then b else s).
Proof.
  intros Hwf Ha Hb Hab Hra Hrb y s H.
  assert (HB : Root (upd p a b) b b)
    by (constructor; rewrite ?upd_length, ?nth_upd_neq; auto).
  induction H as [y Hy He|y s Hy Hne H IH].
  - destruct (Nat.eqb_spec y a) as [->|Hya].
    + apply Root_step; rewrite ?upd_length; auto; rewrite nth_upd_eq; auto.
    + constructor; rewrite ?upd_length; auto. rewrite nth_upd_neq; auto.
  - assert (y <> a) by congruence.
    apply Root_step; rewrite ?upd_length; auto; rewrite nth_upd_neq; auto.
Qed.

Lemma link_inv n ps p rk c a b x y rk' :
  inv n ps (mk_uf p rk c) -> x < n -> y < n -> Root p x a -> Root p y b -> a <> b ->
  nth a rk 0 < nth b rk' 0 -> length rk' = length rk ->
  (forall z, z <> b -> nth z rk' 0 = nth z rk 0) -> nth b rk 0 <= nth b rk' 0 <= S (nth b rk 0) ->
  inv n (ps ++ [(x, y)]) (mk_uf (upd p a b) rk' (c - 1)) /\
  inv n (ps ++ [(y, x)]) (mk_uf (upd p a b) rk' (c - 1)).
Proof.
  intros [Hlen Hps Hwf Hconn Hcnt Hrank] Hx Hy Hxa Hyb Hab Hlt Hlr Hsame Hb'. simpl in *.
  pose proof (Root_lt _ _ _ Hxa) as (_ & Ha & Hra). pose proof (Root_lt _ _ _ Hyb) as (_ & Hb & Hrb).
  pose proof Hwf as (Hl & Hr & Hrk).
  pose proof (link_Root p rk a b Hwf Ha Hb Hab Hra Hrb) as Hlink.
  assert (Hwf' : wf (upd p a b) rk').
  { split; [rewrite upd_length; congruence|]. rewrite upd_length. split; intros z Hz.
    - rewrite nth_upd. destruct (_ && _); auto.
    - destruct (Nat.eq_dec z a) as [->|Hza].
      + rewrite nth_upd_eq by auto. rewrite (Hsame a) by auto. auto.
      + rewrite nth_upd_neq by auto. intros Hne.
        assert (z <> b) by congruence. rewrite (Hsame z) by auto.
        specialize (Hrk z Hz Hne). destruct (Nat.eq_dec (nth z p 0) b) as [E|]; [rewrite E in *; lia|].
        rewrite Hsame; auto. }
  assert (Hlen' : length (upd p a b) = n) by now rewrite upd_length.
  assert (Hroots : S (nroots (upd p a b)) = nroots p).
  { unfold nroots. rewrite upd_length. apply filter_remove_one with (a := a).
    - apply seq_NoDup.
    - apply in_seq. lia.
    - now apply Nat.eqb_eq.
    - rewrite nth_upd_eq by auto. apply Nat.eqb_neq; auto.
    - intros z Hz. now rewrite nth_upd_neq. }
  assert (Hrank' : forall z, z < n -> nth z rk' 0 + (c - 1) <= n).
  { intros z Hz. specialize (Hrank z Hz). assert (0 < c) by lia.
    pose proof Hroots.
    destruct (Nat.eq_dec z b) as [->|]; [lia|]. rewrite Hsame by auto. lia. }
  assert (Hmain : forall qs, (forall q, In q qs <-> In q ps \/ q = (x, y)) \/
                             (forall q, In q qs <-> In q ps \/ q = (y, x)) ->
    forall u v, u < n -> v < n ->
     (conn qs u v <-> exists r, Root (upd p a b) u r /\ Root (upd p a b) v r)).
  { intros qs Hqs u v Hu Hv.
    assert (Hpsqs : incl ps qs) by (intros q Hq; destruct Hqs as [H|H]; apply H; auto).
    assert (Hxy : conn qs x y).
    { destruct Hqs as [H|H]; [|apply conn_sym]; apply conn_pair, H; auto. }
    set (Q := fun u v => u = v \/ (u < n /\ v < n /\ exists r, Root (upd p a b) u r /\ Root (upd p a b) v r)).
    assert (HQs : forall u v, Q u v -> Q v u).
    { intros u' v' [->|(? & ? & r & H1 & H2)]; [now left|right]. eauto. }
    assert (Hxr : Root (upd p a b) x b).
    { generalize (Hlink _ _ Hxa). now rewrite Nat.eqb_refl. }
    assert (Hyr : Root (upd p a b) y b).
    { generalize (Hlink _ _ Hyb). destruct (Nat.eqb_spec b a); congruence. }
    assert (HQxy : Q x y) by (right; eauto).
    split.
    - intros H.
      assert (HR : Q u v).
      { clear Hu Hv. revert u v H. apply conn_in_relation.
        - now left.
        - exact HQs.
        - intros u v w [->|(Hu & Hv & r & H1 & H2)] [->|(Hu' & Hv' & r' & H1' & H2')];
            try (now left); try (right; eauto 6; fail).
          assert (r = r') by (eapply Root_fun; eauto). subst. right; eauto 6.
        - intros u v Hin.
          assert (In (u, v) ps \/ (u = x /\ v = y) \/ (u = y /\ v = x)) as [Hin'|[[-> ->]|[-> ->]]].
          { destruct Hqs as [H|H]; apply H in Hin as [|E]; auto; injection E as -> ->; auto. }
          + destruct (Hps _ _ Hin') as [Hu Hv]. right. split; [auto|split;[auto|]].
            destruct (proj1 (Hconn u v Hu Hv) (conn_pair _ _ _ Hin')) as (r & H1 & H2).
            eexists. split; apply Hlink; eauto.
          + exact HQxy.
          + now apply HQs. }
      destruct HR as [->|(_ & _ & HR)]; [|exact HR].
      destruct (Root_total _ _ Hwf' v) as [r Hr']; [congruence|]. eauto.
    - intros (r & H1 & H2).
      destruct (Root_total _ _ Hwf u) as [ru Hru]; [congruence|].
      destruct (Root_total _ _ Hwf v) as [rv Hrv]; [congruence|].
      assert (Hcl : forall z s, z < n -> Root p z s -> conn qs z (if s =? a then x else if s =? b then y else s)).
      { intros z s Hz Hzs. apply (conn_mono ps); [auto|].
        pose proof (Root_lt _ _ _ Hzs) as (_ & Hs & _). apply Root_idem in Hzs as Hss.
        destruct (Nat.eqb_spec s a) as [->|]; [|destruct (Nat.eqb_spec s b) as [->|]];
          apply Hconn; auto; try congruence; eauto. }
      pose proof (Root_fun _ _ _ _ H1 (Hlink _ _ Hru)) as E1.
      pose proof (Root_fun _ _ _ _ H2 (Hlink _ _ Hrv)) as E2.
      pose proof (Hcl _ _ Hu Hru) as C1. pose proof (Hcl _ _ Hv Hrv) as C2.
      assert (conn qs y x) by now apply conn_sym.
      destruct (Nat.eqb_spec ru a) as [->|], (Nat.eqb_spec rv a) as [->|];
        try (destruct (Nat.eqb_spec ru b) as [->|]); try (destruct (Nat.eqb_spec rv b) as [->|]);
        try congruence; subst;
        try (eapply conn_trans; [exact C1|]; apply conn_sym; eauto using conn_trans, conn_sym). }
  split; constructor; simpl; auto; try lia.
  - intros u v [H|[E|[]]]%in_app_or; [eauto|]. injection E as <- <-. auto.
  - apply Hmain. left. intros q. rewrite in_app_iff. simpl. intuition.
  - intros u v [H|[E|[]]]%in_app_or; [eauto|]. injection E as <- <-. auto.
  - apply Hmain. right. intros q. rewrite in_app_iff. simpl. intuition.
Qed.

Lemma conn_root_iff n ps u x y a b : inv n ps u -> x < n -> y < n ->
  Root (parent u) x a -> Root (parent u) y b -> (a = b <-> conn ps x y).
Proof.
  intros Hi Hx Hy Ha Hb. rewrite (inv_conn _ _ _ Hi x y Hx Hy). split.
  - intros <-. eauto.
  - intros (r & H1 & H2). rewrite (Root_fun _ _ _ _ Ha H1). symmetry. eapply Root_fun; eauto.
Qed.

Lemma inv_ext n ps ps' u : (forall x y, conn ps x y <-> conn ps' x y) ->
  (forall x y, In (x, y) ps' -> x < n /\ y < n) -> inv n ps u -> inv n ps' u.
Proof.
  intros He Hp [? ? ? Hc ? ?]. constructor; auto.
  intros x y Hx Hy. rewrite <- He. now apply Hc.
Qed.

Lemma uf_eta u : u = mk_uf (parent u) (rank u) (cnt u).
Proof. now destruct u. Qed.

Lemma union_inv n ps u a b : inv n ps u -> a < n -> b < n ->
  exists u' t, uf_union u a b = Some (u', t) /\ inv n (ps ++ [(a, b)]) u' /\
    (t = true <-> ~ conn ps a b).
Proof.
  intros Hi Ha Hb. unfold uf_union.
  destruct (find_inv _ _ _ a Hi Ha) as (u1 & ra & -> & Hi1 & Hrk1 & Hc1 & Hr1 & Hiff1).
  destruct (find_inv _ _ _ b Hi1 Hb) as (u2 & rb & -> & Hi2 & Hrk2 & Hc2 & Hr2 & Hiff2).
  assert (Hra : Root (parent u2) a ra) by now rewrite Hiff2, Hiff1.
  assert (Hrb : Root (parent u2) b rb) by now rewrite Hiff2.
  pose proof (conn_root_iff _ _ _ _ _ _ _ Hi2 Ha Hb Hra Hrb) as Hconn.
  destruct (Nat.eqb_spec ra rb) as [->|Hne].
  - exists u2, false. split; [reflexivity|]. split; [|intuition; easy].
    apply inv_ext with ps; auto.
    + intros x y. split; [apply conn_mono; intros ?; rewrite in_app_iff; auto|].
      apply conn_in_relation; [apply conn_refl|apply conn_sym|apply conn_trans|].
      intros x' y' [H|[E|[]]]%in_app_or; [now apply conn_pair|]. injection E as <- <-. tauto.
    + intros x y [H|[E|[]]]%in_app_or; [eapply inv_pairs; eauto|]. injection E as <- <-. auto.
  - assert (Ht : true = true <-> ~ conn ps a b) by intuition.
    pose proof (inv_wf _ _ _ Hi2) as (Hlr & _).
    pose proof (Root_lt _ _ _ Hra) as (_ & Hral & _). pose proof (Root_lt _ _ _ Hrb) as (_ & Hrbl & _).
    rewrite (uf_eta u2) in Hi2.
    destruct (Nat.ltb_spec (nth ra (rank u2) 0) (nth rb (rank u2) 0)) as [Hlt|Hge].
    + eexists _, true. split; [reflexivity|]. split; [|exact Ht].
      eapply (link_inv n ps _ _ _ ra rb a b); eauto.
    + eexists _, true. split; [reflexivity|]. split; [|exact Ht].
      eapply (link_inv n ps _ _ _ rb ra b a); eauto.
      * destruct (Nat.eqb_spec (nth ra (rank u2) 0) (nth rb (rank u2) 0)); [|lia].
        rewrite nth_upd_eq; lia.
      * destruct (_ =? _); [apply upd_length|auto].
      * intros z Hz. destruct (_ =? _); [now rewrite nth_upd_neq|auto].
      * destruct (_ =? _); [rewrite nth_upd_eq|]; lia.
Qed.

(* what a call may answer after the pairs [ps] were requested *)
Definition answer_ok (n : nat) (ps : list (nat * nat)) (o : uf_op) (r : uf_res) : Prop :=
  match o, r with
  | OUnion a b, RBool t => t = true <-> ~ conn ps a b
  | OFind a, RNode x => x < n /\ conn ps a x
  | _, _ => False
  end.

Lemma step_inv n ps u o : inv n ps u -> op_lt n o ->
  exists u' r, uf_step u o = Some (u', r) /\ inv n (ps ++ pairs_of [o]) u' /\ answer_ok n ps o r.
Proof.
  intros Hi Ho. destruct o as [a b|a]; simpl in *.
  - destruct Ho as [Ha Hb]. destruct (union_inv _ _ _ a b Hi Ha Hb) as (u' & t & -> & Hi' & Ht).
    eexists _, _. eauto.
  - destruct (find_inv _ _ _ a Hi Ho) as (u' & r & -> & Hi' & _ & _ & Hr & _).
    eexists _, _. split; [reflexivity|]. rewrite app_nil_r. split; [auto|].
    simpl. pose proof (Root_lt _ _ _ Hr) as (_ & Hl & _). rewrite (inv_len _ _ _ Hi) in Hl.
    split; [auto|]. apply (inv_conn _ _ _ Hi); auto. apply Root_idem in Hr as Hr'. eauto.
Qed.

Lemma pairs_of_cons o os : pairs_of (o :: os) = pairs_of [o] ++ pairs_of os.
Proof. simpl. now rewrite app_nil_r. Qed.

Lemma run_inv n os : Forall (op_lt n) os -> forall ps u, inv n ps u ->
  exists u' rs, uf_run u os = Some (u', rs) /\ inv n (ps ++ pairs_of os) u' /\
    length rs = length os /\
    forall k o r, nth_error os k = Some o -> nth_error rs k = Some r ->
      answer_ok n (ps ++ pairs_of (firstn k os)) o r.
Proof.
  intros Hos. induction os as [|o os IH]; intros ps u Hi.
  - exists u, []. simpl. rewrite app_nil_r. split; [auto|split;[auto|split;[auto|]]].
    intros [|k] o r Ho; discriminate.
  - inversion Hos; subst. destruct (step_inv _ _ _ o Hi) as (u1 & r & Hs & Hi1 & Hans); auto.
    destruct (IH H2 _ _ Hi1) as (u2 & rs & Hr & Hi2 & Hl & Hall).
    exists u2, (r :: rs). rewrite pairs_of_cons, app_assoc. split; [simpl; now rewrite Hs, Hr|].
    split; [exact Hi2|]. split; [simpl; auto|].
    intros [|k] o' r' Ho' Hr'.
    + simpl in *. injection Ho' as ->. injection Hr' as ->. now rewrite app_nil_r.
    + rewrite firstn_cons, pairs_of_cons, app_assoc. exact (Hall _ _ _ Ho' Hr').
Qed.

Lemma inv_classes n ps u : inv n ps u -> classes n (conn ps) (cnt u).
Proof.
  intros Hi. pose proof Hi as [Hlen Hps Hwf Hconn Hcnt Hrank].
  exists (filter (fun x => nth x (parent u) 0 =? x) (seq 0 n)).
  assert (Hin : forall r, In r (filter (fun x => nth x (parent u) 0 =? x) (seq 0 n)) <->
                          r < n /\ nth r (parent u) 0 = r).
  { intros r. rewrite filter_In, in_seq, Nat.eqb_eq. intuition lia. }
  split; [rewrite Hcnt; unfold nroots; now rewrite Hlen|].
  split; [apply NoDup_filter, seq_NoDup|].
  split; [intros r Hr; apply Hin in Hr; tauto|]. split.
  - intros r r' Hr Hr' HR. apply Hin in Hr as [Hr1 Hr2]. apply Hin in Hr' as [Hr1' Hr2'].
    apply Hconn in HR as (s & H1 & H2); auto.
    inversion H1; subst; [|congruence]. inversion H2; subst; congruence.
  - intros x Hx. destruct (Root_total _ _ Hwf x) as [r Hr]; [congruence|].
    pose proof (Root_lt _ _ _ Hr) as (_ & Hl & He). exists r. split; [apply Hin; split; congruence|].
    apply Hconn; try congruence. apply Root_idem in Hr as Hr'. eauto.
Qed.

Lemma find_pair n ps u x y : inv n ps u -> x < n -> y < n ->
  exists u1 rx u2 ry, uf_find u x = Some (u1, rx) /\ uf_find u1 y = Some (u2, ry) /\
    (rx = ry <-> conn ps x y).
Proof.
  intros Hi Hx Hy.
  destruct (find_inv _ _ _ x Hi Hx) as (u1 & rx & H1 & Hi1 & _ & _ & Hr1 & Hiff1).
  destruct (find_inv _ _ _ y Hi1 Hy) as (u2 & ry & H2 & Hi2 & _ & _ & Hr2 & Hiff2).
  exists u1, rx, u2, ry. split; [auto|split;[auto|]].
  apply (conn_root_iff n ps u1); auto. now apply Hiff1.
Qed.

Lemma find_stable n ps u x y : inv n ps u -> x < n -> y < n ->
  exists u1 rx u2 u3 r, uf_find u x = Some (u1, rx) /\ uf_find u y = Some (u2, r) /\ uf_find u1 y = Some (u3, r).
Proof.
  intros Hi Hx Hy.
  destruct (find_inv _ _ _ x Hi Hx) as (u1 & rx & H1 & Hi1 & _ & _ & Hr1 & Hiff1).
  destruct (find_inv _ _ _ y Hi Hy) as (u2 & r & H2 & _ & _ & _ & Hr2 & _).
  destruct (find_inv _ _ _ y Hi1 Hy) as (u3 & r3 & H3 & _ & _ & _ & Hr3 & _).
  apply Hiff1 in Hr3. rewrite (Root_fun _ _ _ _ Hr3 Hr2) in H3.
  exists u1, rx, u2, u3, r. auto.
Qed.
