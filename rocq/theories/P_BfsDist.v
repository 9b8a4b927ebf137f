(* P_BfsDist.v - proofs about bfsDistances. *)
From Coq Require Import Sorted.
From Verif Require Import M_BfsDist SpecHop.

Section Bfs.
Context (nb : list (list nat)) (start : nat).
Let n := length nb.
Context (Hs : start < n) (Hnb : forall v w, In w (nth v nb []) -> w < n).

Definition dd (s : bst) v := nth v (b_dist s) 0.

(* P: processed, X: the vertices in work or waiting, in order *)
Record binv (P X : list nat) (s : bst) : Prop := {
  bi_lp : length (b_par s) = n; bi_ld : length (b_dist s) = n; bi_lx : length (b_disc s) = n;
  bi_nd : NoDup (P ++ X); bi_lt : forall v, In v (P ++ X) -> v < n;
  bi_disc : forall v, nth v (b_disc s) false = true <-> In v (P ++ X);
  bi_cnt : b_vtcs s = length (P ++ X);
  bi_start : In start (P ++ X) /\ dd s start = 0 /\ nth start (b_par s) None = None;
  bi_hop : forall v, In v (P ++ X) -> hop nb start v (dd s v);
  bi_par : forall v, In v (P ++ X) -> v <> start -> exists p, nth v (b_par s) None = Some p /\ In p (P ++ X) /\ In v (nth p nb []) /\ dd s v = S (dd s p);
  bi_un : forall v, ~ In v (P ++ X) -> nth v (b_par s) None = None /\ dd s v = 0;
  bi_sort : StronglySorted (fun a b => dd s a <= dd s b) (P ++ X) }.

Definition near (s : bst) (top : nat) (l : list nat) := forall v, In v l -> dd s v <= S (dd s top).
Definition closed_at (s : bst) (L : list nat) v (row : list nat) := forall w, In w row -> In w L /\ dd s w <= S (dd s v).

Lemma sorted_app {A} (R : A -> A -> Prop) a b x y : StronglySorted R (a ++ b) -> In x a -> In y b -> R x y.
Proof. intros S Ha Hb. induction a as [|z a IH]; [destruct Ha|]. cbn in S. inversion S as [|? ? S' F]; subst. destruct Ha as [->|Ha]; [|auto]. rewrite Forall_forall in F. apply F, in_or_app. auto. Qed.
Lemma sorted_snoc {A} (R : A -> A -> Prop) a x : StronglySorted R a -> (forall y, In y a -> R y x) -> StronglySorted R (a ++ [x]).
Proof.
  induction a as [|z a IH]; intros S H; cbn; [constructor; [constructor|constructor]|]. inversion S as [|? ? S' F]; subst. constructor; [apply IH; auto; intros; apply H; right; auto|].
  apply Forall_forall. intros y Hy. apply in_app_or in Hy as [Hy|[<-|[]]]; [rewrite Forall_forall in F; auto|apply H; left; auto].
Qed.
Lemma sorted_ext {A} (R R' : A -> A -> Prop) a : (forall x y, In x a -> In y a -> R x y -> R' x y) -> StronglySorted R a -> StronglySorted R' a.
Proof.
  induction a as [|z a IH]; intros H S; [constructor|]. inversion S as [|? ? S' F]; subst. constructor; [apply IH; auto; intros; apply H; auto; right; auto|].
  rewrite Forall_forall in F |- *. intros y Hy. apply H; [left; auto|right; auto|auto].
Qed.

Lemma found_ok P top Q t s : binv P (top :: Q) s -> near s top (P ++ top :: Q) -> In t (nth top nb []) -> nth t (b_disc s) false = false -> b_q s = Q ->
  let s' := b_found top t s in binv P (top :: Q ++ [t]) s' /\ near s' top (P ++ top :: Q ++ [t]) /\ b_q s' = Q ++ [t] /\ (forall v, v <> t -> dd s' v = dd s v) /\ dd s' t = S (dd s top).
Proof.
  intros I NE Ht Dt EQ s'.
  assert (Lt : t < n) by (apply (Hnb top); auto).
  assert (NI : ~ In t (P ++ top :: Q)) by (intro H; apply (bi_disc _ _ _ I) in H; congruence).
  assert (ES : P ++ top :: Q ++ [t] = (P ++ top :: Q) ++ [t]) by (rewrite <- app_assoc; reflexivity).
  assert (IT : In top (P ++ top :: Q)) by (apply in_or_app; right; left; auto).
  assert (TT : t <> top) by (intros ->; auto).
  assert (D1 : forall v, v <> t -> dd s' v = dd s v) by (intros v Hv; unfold dd, s', b_found; cbn [b_dist]; apply nth_upd_neq; auto).
  assert (D2 : dd s' t = S (dd s top)) by (unfold dd, s', b_found; cbn [b_dist]; rewrite nth_upd_eq by (rewrite (bi_ld _ _ _ I); auto); lia).
  assert (D3 : forall v, In v (P ++ top :: Q) -> dd s' v = dd s v) by (intros v Hv; apply D1; intros ->; auto).
  split; [|split; [|split; [unfold s', b_found; cbn [b_q]; congruence|auto]]].
  - constructor; rewrite ?ES.
    + unfold s', b_found; cbn [b_par]. rewrite upd_length. apply (bi_lp _ _ _ I).
    + unfold s', b_found; cbn [b_dist]. rewrite upd_length. apply (bi_ld _ _ _ I).
    + unfold s', b_found; cbn [b_disc]. rewrite upd_length. apply (bi_lx _ _ _ I).
    + apply NoDup_Add with (a := t) (l := P ++ top :: Q); [rewrite <- (app_nil_r (P ++ top :: Q)) at 1; apply Add_app|]. split; [apply (bi_nd _ _ _ I)|auto].
    + intros v Hv. apply in_app_or in Hv as [Hv|[<-|[]]]; [apply (bi_lt _ _ _ I); auto|auto].
    + intro v. unfold s', b_found; cbn [b_disc]. destruct (Nat.eq_dec v t) as [->|Hv].
      * rewrite nth_upd_eq by (rewrite (bi_lx _ _ _ I); auto). split; [intros _; apply in_or_app; right; left; auto|auto].
      * rewrite nth_upd_neq by auto. rewrite (bi_disc _ _ _ I). split; intro H; [apply in_or_app; auto|apply in_app_or in H as [H|[H|[]]]; [auto|congruence]].
    + unfold s', b_found; cbn [b_vtcs]. rewrite (bi_cnt _ _ _ I). rewrite (app_length (P ++ top :: Q)). cbn [length]. lia.
    + destruct (bi_start _ _ _ I) as (A & B & C). split; [apply in_or_app; auto|]. split; [rewrite D3; auto|]. unfold s', b_found; cbn [b_par]. rewrite nth_upd_neq; auto. intros ->; auto.
    + intros v Hv. apply in_app_or in Hv as [Hv|[<-|[]]]; [rewrite D3 by auto; apply (bi_hop _ _ _ I); auto|]. rewrite D2. apply hop_S with top; auto. apply (bi_hop _ _ _ I); auto.
    + intros v Hv NS. apply in_app_or in Hv as [Hv|[<-|[]]].
      * destruct (bi_par _ _ _ I v Hv NS) as (p & A & B & C & D). exists p. rewrite !D3 by auto. split; [|split; [apply in_or_app; auto|auto]]. unfold s', b_found; cbn [b_par]. rewrite nth_upd_neq; auto. intros ->; auto.
      * exists top. rewrite D2, (D3 top) by auto. split; [unfold s', b_found; cbn [b_par]; rewrite nth_upd_eq; auto; rewrite (bi_lp _ _ _ I); auto|]. split; [apply in_or_app; auto|auto].
    + intros v Hv. assert (v <> t /\ ~ In v (P ++ top :: Q)) as [A B] by (split; [intros ->; apply Hv, in_or_app; right; left; auto|intro; apply Hv, in_or_app; auto]).
      rewrite D1 by auto. destruct (bi_un _ _ _ I v B) as [U1 U2]. split; [|auto]. unfold s', b_found; cbn [b_par]. rewrite nth_upd_neq; auto.
    + apply sorted_snoc; [|intros y Hy; rewrite D2, D3 by auto; apply NE; auto]. eapply sorted_ext; [|apply (bi_sort _ _ _ I)]. intros x y Hx Hy H. rewrite !D3 by auto. exact H.
  - intros v Hv. rewrite ES in Hv. rewrite (D3 top) by auto. apply in_app_or in Hv as [Hv|[<-|[]]]; [rewrite D3 by auto; apply NE; auto|rewrite D2; auto].
Qed.

Lemma scan_ok P top row : forall Q s, binv P (top :: Q) s -> near s top (P ++ top :: Q) -> b_q s = Q -> (forall w, In w row -> In w (nth top nb [])) ->
  (forall p w, In p P -> In w (nth p nb []) -> In w (P ++ top :: Q) /\ dd s w <= S (dd s p)) ->
  match b_scan n top row s with
  | inl s' => exists Q', b_q s' = Q' /\ binv P (top :: Q') s' /\ near s' top (P ++ top :: Q') /\ closed_at s' (P ++ top :: Q') top row /\
      (forall p w, In p P -> In w (nth p nb []) -> In w (P ++ top :: Q') /\ dd s' w <= S (dd s' p)) /\ (forall v, In v (P ++ top :: Q) -> In v (P ++ top :: Q') /\ dd s' v = dd s v)
  | inr (s', t) => exists Q', binv P (top :: Q' ++ [t]) s' /\ near s' top (P ++ top :: Q' ++ [t]) /\ length (P ++ top :: Q' ++ [t]) = n /\ dd s' t = S (dd s' top) /\
      (forall p w, In p P -> In w (nth p nb []) -> In w (P ++ top :: Q' ++ [t]) /\ dd s' w <= S (dd s' p))
  end.
Proof.
  induction row as [|t row IH]; intros Q s I NE EQ HR HC; cbn [b_scan].
  - exists Q. split; [auto|]. split; [auto|]. split; [auto|]. split; [intros ? []|]. split; [exact HC|auto].
  - destruct (nth t (b_disc s) false) eqn:Dt.
    + specialize (IH Q s I NE EQ (fun w H => HR w (or_intror H)) HC). destruct (b_scan n top row s) as [s'|[s' t']]; [|exact IH].
      destruct IH as (Q' & A & B & C & D & E & F). exists Q'. split; [exact A|]. split; [exact B|]. split; [exact C|]. split; [|split; [exact E|exact F]].
      intros w [<-|H]; [|apply D; auto]. assert (IT : In t (P ++ top :: Q)) by (apply (bi_disc _ _ _ I); auto). destruct (F t IT) as [F1 F2]. split; [exact F1|apply C, F1].
    + destruct (found_ok P top Q t s I NE (HR t (or_introl eq_refl)) Dt EQ) as (I' & NE' & EQ' & D1 & D2).
      assert (NI : ~ In t (P ++ top :: Q)) by (intro H; apply (bi_disc _ _ _ I) in H; congruence).
      assert (SUB : forall v, In v (P ++ top :: Q) -> In v (P ++ top :: Q ++ [t]) /\ dd (b_found top t s) v = dd s v).
      { intros v Hv. split; [|apply D1; intros ->; auto]. apply in_app_or in Hv. apply in_or_app. destruct Hv as [|[|]]; [auto|right; left; auto|right; right; apply in_or_app; auto]. }
      assert (HC' : forall p w, In p P -> In w (nth p nb []) -> In w (P ++ top :: Q ++ [t]) /\ dd (b_found top t s) w <= S (dd (b_found top t s) p)).
      { intros p w Hp Hw. destruct (HC p w Hp Hw) as [A B]. destruct (SUB w A) as [A' ->]. split; [auto|]. destruct (SUB p) as [_ ->]; [apply in_or_app; auto|auto]. }
      destruct (Nat.eqb_spec (b_vtcs (b_found top t s)) n) as [EN|EN].
      * exists Q. split; [exact I'|]. split; [exact NE'|]. split; [rewrite <- EN; symmetry; apply (bi_cnt _ _ _ I')|]. split; [|exact HC'].
        rewrite D2, D1; auto. intros ->. apply NI, in_or_app. right; left; auto.
      * specialize (IH (Q ++ [t]) (b_found top t s) I' NE' EQ' (fun w H => HR w (or_intror H)) HC'). destruct (b_scan n top row _) as [s'|[s' t']]; [|exact IH].
        destruct IH as (Q' & A & B & C & D & E & F). exists Q'.
        assert (SUB2 : forall v, In v (P ++ top :: Q) -> In v (P ++ top :: Q') /\ dd s' v = dd s v).
        { intros v Hv. destruct (SUB v Hv) as [S1 S2]. destruct (F v S1) as [F1 F2]. split; [auto|congruence]. }
        split; [exact A|]. split; [exact B|]. split; [exact C|]. split; [|split; [exact E|exact SUB2]].
        intros w [<-|H]; [|apply D; auto]. assert (F1 : In t (P ++ top :: Q')) by (apply F, in_or_app; right; right; apply in_or_app; right; left; auto). split; [exact F1|apply C, F1].
Qed.

(* the result *)
Definition bfs_spec (par : list (option nat)) (dist : list nat) (far : option nat) : Prop :=
  length par = n /\ length dist = n /\
  (forall v, (exists k, hop nb start v k) -> hop nb start v (nth v dist 0) /\ (forall k, hop nb start v k -> nth v dist 0 <= k)) /\
  (forall v, (exists k, hop nb start v k) -> v <> start -> exists p, nth v par None = Some p /\ (exists k, hop nb start p k) /\ In v (nth p nb []) /\ nth v dist 0 = S (nth p dist 0)) /\
  (forall v, v = start \/ ~ (exists k, hop nb start v k) -> nth v par None = None /\ nth v dist 0 = 0) /\
  (exists f k, far = Some f /\ hop nb start f k /\ forall v, (exists k', hop nb start v k') -> nth v dist 0 <= nth f dist 0).

Lemma lower P top Q s : binv P (top :: Q) s -> (forall p w, In p P -> In w (nth p nb []) -> In w (P ++ top :: Q) /\ dd s w <= S (dd s p)) ->
  forall v k, hop nb start v k -> (In v (P ++ top :: Q) /\ dd s v <= k) \/ S (dd s top) <= k.
Proof.
  intros I HC v k H. induction H as [|v w k H IH Hw].
  - left. destruct (bi_start _ _ _ I) as (A & B & _). split; [auto|lia].
  - destruct IH as [[A B]|A]; [|right; lia]. apply in_app_or in A as [A|A].
    + left. destruct (HC v w A Hw). split; [auto|lia].
    + right. destruct A as [<-|A]; [lia|].
      assert (X : dd s top <= dd s v); [|lia].
      pose proof (bi_sort _ _ _ I) as S. replace (P ++ top :: Q) with ((P ++ [top]) ++ Q) in S by (rewrite <- app_assoc; reflexivity).
      apply (sorted_app _ _ _ top v S); [apply in_or_app; right; left; auto|auto].
Qed.

Lemma finish_early P top Q t s : binv P (top :: Q ++ [t]) s -> near s top (P ++ top :: Q ++ [t]) -> length (P ++ top :: Q ++ [t]) = n -> dd s t = S (dd s top) ->
  (forall p w, In p P -> In w (nth p nb []) -> In w (P ++ top :: Q ++ [t]) /\ dd s w <= S (dd s p)) -> bfs_spec (b_par s) (b_dist s) (Some t).
Proof.
  intros I NE LN DT HC. set (L := P ++ top :: Q ++ [t]) in *.
  assert (ALL : forall v, v < n -> In v L).
  { intros v Hv. apply (NoDup_length_incl (l := L) (l' := seq 0 n)); [apply (bi_nd _ _ _ I)|rewrite seq_length; lia|intros x Hx; apply in_seq; pose proof (bi_lt _ _ _ I x Hx); lia|apply in_seq; lia]. }
  assert (RL : forall v k, hop nb start v k -> In v L).
  { intros v k H. apply ALL. inversion H as [|? ? ? ? Hw]; subst; [exact Hs|eapply Hnb; eauto]. }
  split; [apply (bi_lp _ _ _ I)|]. split; [apply (bi_ld _ _ _ I)|]. split; [|split; [|split]].
  - intros v [k0 H0]. split; [apply (bi_hop _ _ _ I), (RL v k0 H0)|]. intros k Hk. destruct (lower _ _ _ _ I HC v k Hk) as [[_ A]|A]; [exact A|].
    pose proof (NE v (RL v k Hk)). unfold dd in *. lia.
  - intros v [k0 H0] NS. destruct (bi_par _ _ _ I v (RL v k0 H0) NS) as (p & A & B & C & D). exists p. split; [exact A|]. split; [eexists; apply (bi_hop _ _ _ I), B|]. split; [exact C|exact D].
  - intros v [->|H]; [destruct (bi_start _ _ _ I) as (A & B & C); auto|]. apply (bi_un _ _ _ I). intro H'. apply H. eexists. apply (bi_hop _ _ _ I), H'.
  - exists t, (dd s t). split; [reflexivity|]. split; [apply (bi_hop _ _ _ I), in_or_app; right; right; apply in_or_app; right; left; auto|].
    intros v [k' Hk]. pose proof (NE v (RL v k' Hk)). unfold dd in *. lia.
Qed.

Lemma finish_end P top s : binv (P ++ [top]) [] s -> (forall p w, In p (P ++ [top]) -> In w (nth p nb []) -> In w (P ++ [top]) /\ dd s w <= S (dd s p)) -> bfs_spec (b_par s) (b_dist s) (Some top).
Proof.
  intros I HC. set (L := P ++ [top]) in *. destruct I as [i1 i2 i3 i4 i5 i6 i7 i8 i9 i10 i11 i12]. rewrite app_nil_r in *.
  assert (RL : forall v k, hop nb start v k -> In v L /\ dd s v <= k).
  { intros v k H. induction H as [|v w k H IH Hw]; [destruct i8 as (A & B & _); split; [auto|lia]|]. destruct IH as [A B]. destruct (HC v w A Hw). split; [auto|lia]. }
  split; [exact i1|]. split; [exact i2|]. split; [|split; [|split]].
  - intros v [k0 H0]. split; [apply i9, (RL v k0 H0)|]. intros k Hk. apply (RL v k Hk).
  - intros v [k0 H0] NS. destruct (i10 v (proj1 (RL v k0 H0)) NS) as (p & A & B & C & D). exists p. split; [exact A|]. split; [eexists; apply i9, B|]. split; [exact C|exact D].
  - intros v [->|H]; [destruct i8 as (A & B & C); auto|]. apply i11. intro H'. apply H. eexists. apply i9, H'.
  - exists top, (dd s top). split; [reflexivity|]. split; [apply i9, in_or_app; right; left; auto|].
    intros v [k' Hk]. destruct (RL v k' Hk) as [A _]. unfold L in A, i12. apply in_app_or in A as [A|[<-|[]]]; [|lia]. apply (sorted_app _ _ _ v top i12); [auto|left; auto].
Qed.

Lemma loop_ok fuel : forall P Q s top, binv P Q s -> b_q s = Q -> n <= fuel + length P ->
  (forall p w, In p P -> In w (nth p nb []) -> In w (P ++ Q) /\ dd s w <= S (dd s p)) ->
  (match top with None => P = [] /\ Q = [start] | Some t => exists P0, P = P0 ++ [t] /\ forall v, In v Q -> dd s v <= S (dd s t) end) ->
  exists s' far, b_loop fuel nb top s = Some (s', far) /\ bfs_spec (b_par s') (b_dist s') far.
Proof.
  assert (EMPTY : forall P s top, binv P [] s -> (forall p w, In p P -> In w (nth p nb []) -> In w (P ++ []) /\ dd s w <= S (dd s p)) ->
    (match top with None => P = [] /\ [] = [start] | Some t => exists P0, P = P0 ++ [t] /\ forall v, In v [] -> dd s v <= S (dd s t) end) -> bfs_spec (b_par s) (b_dist s) top).
  { intros P s top I HC HT. destruct top as [t|]; [|destruct HT as [_ HT]; discriminate HT].
    destruct HT as (P0 & -> & _). eapply finish_end; [exact I|]. intros p w Hp Hw. rewrite app_nil_r in HC. apply HC; auto. }
  induction fuel as [|fuel IH]; intros P Q s top I EQ LF HC HT.
  - assert (EN : Q = []). { destruct Q as [|v Q]; [auto|]. exfalso.
      pose proof (NoDup_incl_length (l := P ++ v :: Q) (l' := seq 0 n) (bi_nd _ _ _ I)) as H. rewrite app_length, seq_length in H. cbn [length] in H.
      cut (length P + S (length Q) <= n); [lia|]. apply H. intros x Hx. apply in_seq. pose proof (bi_lt _ _ _ I x Hx). lia. }
    rewrite EN in *. cbn [b_loop]. rewrite EQ. exists s, top. split; [reflexivity|]. eapply EMPTY; eauto.
  - cbn [b_loop]. rewrite EQ. destruct Q as [|v Q].
    + exists s, top. split; [reflexivity|]. eapply EMPTY; eauto.
    + set (s0 := mk_bst (b_par s) (b_dist s) (b_disc s) (b_vtcs s) Q). assert (I0 : binv P (v :: Q) s0) by (destruct I; constructor; auto).
      assert (NE : near s0 v (P ++ v :: Q)).
      { pose proof (bi_sort _ _ _ I) as S. intros x Hx. change (dd s0 x) with (dd s x). change (dd s0 v) with (dd s v). apply in_app_or in Hx as [Hx|Hx].
        - pose proof (sorted_app _ _ _ x v S Hx (or_introl eq_refl)). cbn beta in *. lia.
        - destruct top as [t|].
          + destruct HT as (P0 & -> & HQ). pose proof (HQ x Hx). pose proof (sorted_app _ _ _ t v S ltac:(apply in_or_app; right; left; auto) (or_introl eq_refl)). cbn beta in *. lia.
          + destruct HT as [-> E]. injection E as -> ->. destruct Hx as [<-|[]]. lia. }
      pose proof (scan_ok P v (nth v nb []) Q s0 I0 NE eq_refl (fun w H => H) HC) as SC. fold n.
      destruct (b_scan n v (nth v nb []) s0) as [s'|[s' t]].
      * destruct SC as (Q' & EQ' & I' & NE' & CL & HC' & SUB). apply (IH (P ++ [v]) Q').
        -- destruct I'. replace (P ++ v :: Q') with ((P ++ [v]) ++ Q') in * by (rewrite <- app_assoc; reflexivity). constructor; auto.
        -- exact EQ'.
        -- rewrite app_length. cbn [length]. lia.
        -- intros p w Hp Hw. rewrite <- app_assoc. cbn [app]. apply in_app_or in Hp as [Hp|[<-|[]]]; [apply HC'; auto|apply CL; auto].
        -- exists P. split; [reflexivity|]. intros x Hx. apply NE', in_or_app. right. right. auto.
      * destruct SC as (Q' & I' & NE' & LN & DT & HC'). exists s', (Some t). split; [reflexivity|]. eapply finish_early; eauto.
Qed.

Lemma bfs_distances_ok : exists par dist far, bfs_distances nb start = Some (par, dist, far) /\ bfs_spec par dist far.
Proof.
  unfold bfs_distances. fold n. rewrite (proj2 (Nat.ltb_lt _ _) Hs).
  assert (ND : forall v, nth v (repeat 0 n) 0 = 0) by (intro v; destruct (nth_in_or_default v (repeat 0 n) 0) as [H|H]; [apply repeat_spec in H; auto|auto]).
  assert (NP : forall v, nth v (repeat (@None nat) n) None = None) by (intro v; destruct (nth_in_or_default v (repeat (@None nat) n) None) as [H|H]; [apply repeat_spec in H; auto|auto]).
  destruct (loop_ok n [] [start] (mk_bst (repeat None n) (repeat 0 n) (upd (repeat false n) start true) 1 [start]) None) as (s' & far & -> & H).
  - constructor; cbn [app b_par b_dist b_disc b_vtcs].
    + apply repeat_length. + apply repeat_length. + rewrite upd_length. apply repeat_length.
    + repeat constructor. intros []. + intros v [<-|[]]. exact Hs.
    + intro v. destruct (Nat.eq_dec v start) as [->|H]; [rewrite nth_upd_eq by (rewrite repeat_length; auto); split; [intros; left; auto|auto]|].
      rewrite nth_upd_neq by auto. split; [|intros [H'|[]]; congruence]. intro E. exfalso. destruct (nth_in_or_default v (repeat false n) false) as [H'|H']; [apply repeat_spec in H'|]; congruence.
    + reflexivity. + split; [left; auto|]. split; [apply ND|apply NP].
    + intros v [<-|[]]. unfold dd. cbn [b_dist]. rewrite ND. constructor.
    + intros v [<-|[]] H. congruence.
    + intros v _. split; [apply NP|apply ND].
    + repeat constructor.
  - reflexivity.
  - lia.
  - intros p w [].
  - auto.
  - eauto 6.
Qed.
End Bfs.
