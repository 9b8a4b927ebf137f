(* P_Split2.v - proofs about M_Split: the loops of splitConnectedComponents. *)
From Coq Require Import Permutation.
From Verif Require Import SpecMutable P_Mutable P_MutableIO P_Kernel P_KernelC P_Iso P_IsoFlow P_Flow6 P_Split M_Split.

Lemma nth_repeat_lt {A} (x d : A) k i : i < k -> nth i (repeat x k) d = x.
Proof. revert i. induction k as [|k IH]; intros [|i] H; cbn; auto; try lia. apply IH. lia. Qed.

(** ** disjoint blocks *)
Lemma disjoint_together : forall bls used u v,
  (forall i j x, In x (nth i bls []) -> In x (nth j bls []) -> i = j) -> (forall b x, In b bls -> In x b -> used x = false) ->
  (together (disjoint_blocks (map as_set (map (pair 0) (filter big bls))) used) u v <-> u = v \/ exists b, In b bls /\ big b = true /\ In u b /\ In v b).
Proof.
  induction bls as [|b bls IH]; intros used u v DJ US.
  - cbn. unfold together. cbn. firstorder.
  - assert (DJ' : forall i j x, In x (nth i bls []) -> In x (nth j bls []) -> i = j) by (intros i j x Hi Hj; specialize (DJ (S i) (S j) x Hi Hj); lia).
    assert (HD : forall b' x, In b' bls -> In x b' -> mem b x = false).
    { intros b' x Hb' Hx. apply mem_out. intro X. apply In_nth with (d := []) in Hb' as (j & Hj & <-). specialize (DJ 0 (S j) x X Hx). lia. }
    cbn [filter]. destruct (big b) eqn:B.
    + cbn [map as_set disjoint_blocks fst snd].
      specialize (IH (fun v => used v || mem b v) u v DJ'). assert (US' : forall b' x, In b' bls -> In x b' -> used x || mem b x = false).
      { intros b' x Hb' Hx. rewrite (US b' x), (HD b' x); auto. right. auto. }
      specialize (IH US'). unfold together in *. split.
      * intros [->|(s & A & [E|Hi] & Au & Av)]; [auto| |].
        -- injection E as <- <-. unfold minus in Au, Av. apply andb_prop in Au as [Au _], Av as [Av _]. right. exists b. split; [left; auto|]. split; [auto|]. split; apply mem_In; auto.
        -- destruct (proj1 IH (or_intror (ex_intro _ s (ex_intro _ A (conj Hi (conj Au Av)))))) as [->|(b' & Hb' & X)]; [auto|]. right. exists b'. split; [right; auto|auto].
      * intros [->|(b' & [<-|Hb'] & Bb & Hu & Hv)]; [auto| |].
        -- right. exists 0, (minus (mem b) used). split; [left; auto|]. unfold minus. rewrite (US b u), (US b v) by (auto; left; auto). cbn [negb]. rewrite !andb_true_r. split; apply mem_In; auto.
        -- destruct (proj2 IH (or_intror (ex_intro _ b' (conj Hb' (conj Bb (conj Hu Hv)))))) as [->|(s & A & Hi & X)]; [auto|]. right. exists s, A. split; [right; auto|auto].
    + rewrite (IH used u v DJ'); [|intros b' x Hb'; apply US; right; auto]. split.
      * intros [->|(b' & Hb' & X)]; [auto|]. right. exists b'. split; [right; auto|auto].
      * intros [->|(b' & [<-|Hb'] & Bb & X)]; [auto| |]; [congruence|]. right. exists b'. auto.
Qed.

Lemma upd_row_count : forall row t, nth_error row t = Some false -> length (filter (fun b : bool => b) (upd row t true)) = length (filter (fun b : bool => b) row) + 1.
Proof.
  induction row as [|b row IH]; intros [|t] H; cbn in H; try discriminate H.
  - injection H as ->. cbn. lia.
  - cbn [upd filter]. specialize (IH t H). destruct b; cbn [length]; lia.
Qed.
Lemma last_true_ok : forall row i d, (exists j, nth j row false = true /\ last_true row i d = Some (i + j)) \/ (forall j, nth j row false = false) /\ last_true row i d = d.
Proof.
  induction row as [|b row IH]; intros i d; [right; split; [intros [|j]; auto|auto]|]. cbn [last_true].
  destruct (IH (S i) (if b then Some i else d)) as [(j & A & B)|[A B]].
  - left. exists (S j). split; [auto|]. rewrite B. f_equal. lia.
  - destruct b.
    + left. exists 0. split; [auto|]. rewrite B. f_equal. lia.
    + right. split; [|auto]. intros [|j]; cbn; auto.
Qed.
Definition nonempty {A} (l : list A) : bool := match l with [] => false | _ => true end.
Lemma pick_terms_ok : forall bl t, pick_terms bl t = (map (fun g => hd 0 (nth (g - t) bl [])) (filter (fun g => nonempty (nth (g - t) bl [])) (seq t (length bl))), filter (fun g => nonempty (nth (g - t) bl [])) (seq t (length bl))).
Proof.
  induction bl as [|b bl IH]; intros t; [reflexivity|]. cbn [pick_terms length seq filter]. rewrite IH.
  assert (Z : nth (t - t) (b :: bl) [] = b) by (rewrite Nat.sub_diag; reflexivity). rewrite Z.
  assert (F : filter (fun g => nonempty (nth (g - t) (b :: bl) [])) (seq (S t) (length bl)) = filter (fun g => nonempty (nth (g - S t) bl [])) (seq (S t) (length bl))).
  { apply filter_ext_in. intros g Hg. apply in_seq in Hg. replace (g - t) with (S (g - S t)) by lia. reflexivity. }
  assert (M : map (fun g => hd 0 (nth (g - t) (b :: bl) [])) (filter (fun g => nonempty (nth (g - S t) bl [])) (seq (S t) (length bl))) = map (fun g => hd 0 (nth (g - S t) bl [])) (filter (fun g => nonempty (nth (g - S t) bl [])) (seq (S t) (length bl)))).
  { apply map_ext_in. intros g Hg. apply filter_In in Hg as [Hg _]. apply in_seq in Hg. replace (g - t) with (S (g - S t)) by lia. reflexivity. }
  rewrite F. destruct b as [|x b']; cbn [nonempty]; [rewrite M; reflexivity|]. cbn [map]. rewrite M, Z. reflexivity.
Qed.

(** ** counting the terminals of each component *)
Section Split.
Context (k n cc : nat) (tm comp : list (option nat)).
Hypothesis Ltm : length tm = n.
Hypothesis Htm : forall v t, nth v tm None = Some t -> t < k.
Hypothesis Lc : length comp = n.
Hypothesis Hc : forall v, v < n -> exists c, nth v comp None = Some c /\ c < cc.

(** component c contains a vertex of terminal t *)
Definition has (m : nat) (c t : nat) : Prop := exists v, v < m /\ nth v comp None = Some c /\ nth v tm None = Some t.


Lemma count_terms_ok : forall rest m tip num, m + length rest = n -> (forall i, i < length rest -> nth i rest None = nth (m + i) comp None) ->
  length tip = cc -> length num = cc ->
  (forall c, c < cc -> length (nth c tip []) = k /\ nth c num 0 = length (filter (fun b => b) (nth c tip []))) ->
  (forall c t, c < cc -> t < k -> (nth t (nth c tip []) false = true <-> has m c t)) ->
  exists tip' num', count_terms tm rest m tip num = Some (tip', num') /\
  (forall c, c < cc -> length (nth c tip' []) = k /\ nth c num' 0 = length (filter (fun b => b) (nth c tip' []))) /\
  (forall c t, c < cc -> t < k -> (nth t (nth c tip' []) false = true <-> has n c t)).
Proof.
  induction rest as [|oc rest IH]; intros m tip num Lm Hr Lt Ln Hk Hh.
  - cbn in *. assert (m = n) by lia. subst m. exists tip, num. auto.
  - cbn [length] in Lm. cbn [count_terms].
    assert (Hm : m < n) by lia. pose proof (Hr 0 ltac:(cbn; lia)) as H0. cbn [nth] in H0. rewrite Nat.add_0_r in H0.
    assert (Hr' : forall i, i < length rest -> nth i rest None = nth (S m + i) comp None).
    { intros i Hi. specialize (Hr (S i) ltac:(cbn; lia)). cbn [nth] in Hr. rewrite Hr. f_equal. lia. }
    rewrite (nth_error_nth' tm None) by lia. destruct (nth m tm None) as [t|] eqn:T.
    + destruct (Hc m Hm) as (c & Ec & Lc'). rewrite <- H0 in Ec. rewrite Ec in *. pose proof (Htm m t T) as Ht.
      rewrite (nth_error_nth' tip []) by lia. destruct (Hk c Lc') as [K1 K2].
      rewrite (nth_error_nth' (nth c tip []) false) by lia. destruct (nth t (nth c tip []) false) eqn:B.
      * apply IH; auto; [lia|]. intros c' t' Lc0 Lt0. rewrite Hh by auto. unfold has. split; intros (v & Lv & A1 & A2).
        -- exists v. split; [lia|auto].
        -- destruct (Nat.eq_dec v m) as [->|N]; [|exists v; split; [lia|auto]]. assert (c' = c) by congruence. assert (t' = t) by congruence. subst. apply Hh; auto.
      * apply IH; auto; try (rewrite upd_length; auto); [lia| |].
        -- intros c' L'. rewrite !nth_upd. destruct (Nat.eqb_spec c' c) as [->|N]; cbn [andb]; [|auto].
           destruct (Nat.ltb_spec c (length tip)), (Nat.ltb_spec c (length num)); try lia. rewrite upd_length, upd_row_count; [|rewrite (nth_error_nth' _ false) by lia; congruence]. auto.
        -- intros c' t' L' L''. rewrite nth_upd. destruct (Nat.eqb_spec c' c) as [->|N]; cbn [andb].
           ++ destruct (Nat.ltb_spec c (length tip)); [|lia]. rewrite nth_upd. destruct (Nat.eqb_spec t' t) as [->|N']; cbn [andb].
              ** destruct (Nat.ltb_spec t (length (nth c tip []))); [|lia]. split; [intros _|auto]. exists m. split; [lia|]. split; congruence.
              ** rewrite Hh by auto. unfold has. split; intros (v & Lv & A1 & A2); exists v; (split; [|auto]); [lia|]. destruct (Nat.eq_dec v m) as [->|]; [congruence|lia].
           ++ rewrite Hh by auto. unfold has. split; intros (v & Lv & A1 & A2); exists v; (split; [|auto]); [lia|]. destruct (Nat.eq_dec v m) as [->|]; [congruence|lia].
    + apply IH; auto; [lia|]. intros c' t' Lc0 Lt0. rewrite Hh by auto. unfold has. split; intros (v & Lv & A1 & A2); exists v; (split; [|auto]); [lia|]. destruct (Nat.eq_dec v m) as [->|]; [congruence|lia].
Qed.


(** ** placing the vertices of one component *)
Definition isT (v t : nat) : bool := match nth v tm None with Some t' => t' =? t | None => false end.

Lemma place_ok c m : forall vs i npm pip bl fx, NoDup vs -> (forall v, In v vs -> v < n /\ nth v pip None = None) -> length npm = n -> length pip = n -> length bl = k -> length fx = m ->
  i + length vs = m ->
  exists npm' pip' bl' fx', place tm c vs i npm pip bl fx = Some (npm', pip', bl', fx') /\ length npm' = n /\ length pip' = n /\ length bl' = k /\
    (forall v, nth v npm' None = if mem vs v then Some c else nth v npm None) /\
    (forall v, ~ In v vs -> nth v pip' None = nth v pip None) /\
    (forall j, j < length vs -> nth (nth j vs 0) pip' None = Some (i + j)) /\
    (forall t, nth t bl' [] = nth t bl [] ++ map (Nat.add i) (filter (fun j => isT (nth j vs 0) t) (seq 0 (length vs)))).
Proof.
  induction vs as [|v vs IH]; intros i npm pip bl fx ND Hv L1 L2 L3 L4 L5.
  - exists npm, pip, bl, fx. cbn. repeat split; auto; [intros j Hj; lia|]. intros t. rewrite app_nil_r. reflexivity.
  - cbn [length] in L5. destruct (Hv v (or_introl eq_refl)) as [Lv Pv]. apply NoDup_cons_iff in ND as [Nv ND']. cbn [place].
    rewrite (nth_error_nth' pip None), (nth_error_nth' npm None), (nth_error_nth' tm None), Pv by lia.
    set (npm1 := upd npm v (Some c)). set (pip1 := upd pip v (Some i)).
    assert (PP : forall w, In w vs -> w < n /\ nth w pip1 None = None).
    { intros w Hw. destruct (Hv w (or_intror Hw)). split; [auto|]. unfold pip1. rewrite nth_upd_neq; [auto|]. intros ->. contradiction. }
    assert (FS : forall t, filter (fun j => isT (nth j (v :: vs) 0) t) (seq 0 (length (v :: vs))) = (if isT v t then [0] else []) ++ map S (filter (fun j => isT (nth j vs 0) t) (seq 0 (length vs)))).
    { intros t. cbn [length seq filter]. rewrite <- seq_shift. assert (X : forall l, filter (fun j => isT (nth j (v :: vs) 0) t) (map S l) = map S (filter (fun j => isT (nth j vs 0) t) l)).
      { induction l as [|a l IHl]; [reflexivity|]. cbn [map filter]. rewrite IHl. change (nth (S a) (v :: vs) 0) with (nth a vs 0). destruct (isT (nth a vs 0) t); reflexivity. }
      rewrite X. change (nth 0 (v :: vs) 0) with v. destruct (isT v t); reflexivity. }
    assert (REST : forall bl1 fx1, length bl1 = k -> length fx1 = m -> (forall t, nth t bl1 [] = nth t bl [] ++ (if isT v t then [i] else [])) ->
      exists npm' pip' bl' fx', place tm c vs (S i) npm1 pip1 bl1 fx1 = Some (npm', pip', bl', fx') /\ length npm' = n /\ length pip' = n /\ length bl' = k /\
       (forall w, nth w npm' None = if mem (v :: vs) w then Some c else nth w npm None) /\
       (forall w, ~ In w (v :: vs) -> nth w pip' None = nth w pip None) /\
       (forall j, j < length (v :: vs) -> nth (nth j (v :: vs) 0) pip' None = Some (i + j)) /\
       (forall t, nth t bl' [] = nth t bl [] ++ map (Nat.add i) (filter (fun j => isT (nth j (v :: vs) 0) t) (seq 0 (length (v :: vs)))))).
    { intros bl1 fx1 B1 F1 BE. destruct (IH (S i) npm1 pip1 bl1 fx1 ND' PP) as (npm' & pip' & bl' & fx' & E & A1 & A2 & A3 & A4 & A5 & A6 & A7); auto; try (unfold npm1, pip1; rewrite upd_length; auto); [lia|].
      exists npm', pip', bl', fx'. repeat split; auto.
      - intros w. rewrite A4. unfold mem, npm1. cbn [existsb]. rewrite nth_upd. destruct (Nat.eqb_spec w v) as [->|N]; cbn [andb orb]; [|auto]. destruct (Nat.ltb_spec v (length npm)); [|lia]. destruct (existsb _ vs); auto.
      - intros w Hw. rewrite A5 by (intro; apply Hw; right; auto). unfold pip1. apply nth_upd_neq. intros ->. apply Hw. left. auto.
      - intros [|j] Hj; cbn [nth].
        + rewrite A5 by auto. unfold pip1. rewrite nth_upd_eq by lia. f_equal. lia.
        + rewrite A6 by (cbn in Hj; lia). f_equal. lia.
      - intros t. rewrite A7, BE, FS, map_app, map_map, <- app_assoc. f_equal. f_equal; [destruct (isT v t); cbn; auto; f_equal; lia|]. apply map_ext. intros a. lia. }
    unfold isT in REST at 1. destruct (nth v tm None) as [t|] eqn:T.
    + pose proof (Htm v t T) as Ht. destruct (Nat.ltb_spec t (length bl)), (Nat.ltb_spec i (length fx)); try lia. cbn [andb].
      apply REST; try (rewrite upd_length; auto; lia). intros t'. rewrite nth_upd. destruct (Nat.eqb_spec t' t) as [->|N]; cbn [andb].
      * destruct (Nat.ltb_spec t (length bl)); [|lia]. rewrite Nat.eqb_refl. reflexivity.
      * destruct (Nat.eqb_spec t t'); [congruence|]. rewrite app_nil_r. reflexivity.
    + apply REST; auto. intros t'. rewrite app_nil_r. reflexivity.
Qed.

End Split.
