From Verif Require Import CCache_model CCache_spec CCacheF_proofs CCacheV_proofs CCacheV2_proofs.
From Coq Require Import Permutation Sorted.
Ltac Zify.zify_post_hook ::= idtac.

Section Evict.
Variables (hsz maxv : nat).
Notation BDS := (bds hsz maxv).
Notation Rep := (Rep hsz maxv).
Notation RepW := (RepW hsz maxv).

(** ** The order of the evicted entries in the data section *)
Section Sort.
Variable off : nat -> nat.
Let R a b := off a < off b.
Lemma ssorted_unique : forall a b, StronglySorted R a -> StronglySorted R b -> Permutation a b -> a = b.
Proof.
  induction a as [|x a IH]; intros b HA HB HP.
  - symmetry. now apply Permutation_nil.
  - destruct b as [|y b]; [apply Permutation_sym, Permutation_nil in HP; discriminate|].
    inversion HA as [|? ? A1 A2]; inversion HB as [|? ? B1 B2]; subst.
    assert (x = y) as <-.
    { destruct (Nat.eq_dec x y) as [|Hne]; [assumption|exfalso].
      assert (In x b) as I1.
      { assert (I : In x (y :: b)) by (apply (Permutation_in _ HP); now left). destruct I; [congruence|assumption]. }
      assert (In y a) as I2.
      { assert (I : In y (x :: a)) by (apply (Permutation_in _ (Permutation_sym HP)); now left). destruct I; [congruence|assumption]. }
      rewrite Forall_forall in A2, B2. specialize (A2 _ I2). specialize (B2 _ I1). unfold R in *. lia. }
    f_equal. apply IH; auto. now apply Permutation_cons_inv in HP.
Qed.
End Sort.

Definition offOf (hs : list hdr) (q : nat) : nat := match nth_error hs q with Some h => h_off h | None => 0 end.
Lemma insertByOff_perm b p l : Permutation (insertByOff b p l) (p :: l).
Proof.
  induction l as [|q r IH]; cbn; [reflexivity|].
  match goal with |- context [if ?c then _ else _] => destruct c end; [reflexivity|].
  etransitivity; [apply perm_skip, IH|apply perm_swap].
Qed.
Lemma sortByOff_perm b l : Permutation (sortByOff b l) l.
Proof.
  induction l as [|p l IH]; cbn; [reflexivity|]. etransitivity; [apply insertByOff_perm|now constructor].
Qed.
Lemma insertByOff_sorted b p l : (forall q, In q l -> offOf (v_hdrs b) q <> offOf (v_hdrs b) p) ->
  StronglySorted (fun x y => offOf (v_hdrs b) x < offOf (v_hdrs b) y) l ->
  StronglySorted (fun x y => offOf (v_hdrs b) x < offOf (v_hdrs b) y) (insertByOff b p l).
Proof.
  induction l as [|q r IH]; intros HD HS; [repeat constructor|].
  inversion HS as [|? ? S1 S2]; subst.
  change (insertByOff b p (q :: r)) with
    (if offOf (v_hdrs b) p <? offOf (v_hdrs b) q then p :: q :: r else q :: insertByOff b p r).
  assert (offOf (v_hdrs b) q <> offOf (v_hdrs b) p) by (apply HD; now left).
  destruct (Nat.ltb_spec (offOf (v_hdrs b) p) (offOf (v_hdrs b) q)).
  - constructor; [assumption|]. constructor; [assumption|]. eapply Forall_impl; [|exact S2]. cbn. intros; lia.
  - constructor; [apply IH; auto; intros x Hx; apply HD; now right|]. apply Forall_forall. intros x Hx.
    apply (Permutation_in _ (insertByOff_perm b p r)) in Hx. destruct Hx as [<-|Hx]; [lia|].
    rewrite Forall_forall in S2. auto.
Qed.
Lemma sortByOff_sorted b l : NoDup (map (offOf (v_hdrs b)) l) ->
  StronglySorted (fun x y => offOf (v_hdrs b) x < offOf (v_hdrs b) y) (sortByOff b l).
Proof.
  induction l as [|p l IH]; cbn; intros H; [constructor|]. inversion H as [|? ? H1 H2]; subst.
  apply insertByOff_sorted; [|now apply IH]. intros q Hq E. apply H1. rewrite <- E.
  apply in_map, (Permutation_in _ (sortByOff_perm b l) Hq).
Qed.

Lemma Lay_sorted hs l bs : forall off, Lay hs l off bs ->
  StronglySorted (fun x y => offOf hs x < offOf hs y) (map fst bs) /\
  Forall (fun i => off <= offOf hs i) (map fst bs).
Proof.
  induction bs as [|[i v] r IH]; intros off HL; [split; constructor|].
  destruct HL as [(k & A & B) C]. destruct (IH _ C) as [I1 I2].
  assert (E : offOf hs i = off) by (unfold offOf; rewrite A; reflexivity).
  cbn. split; constructor; auto.
  - eapply Forall_impl; [|exact I2]. cbn. intros; lia.
  - lia.
  - eapply Forall_impl; [|exact I2]. cbn. intros; lia.
Qed.
Lemma ssorted_filter {A} (R : A -> A -> Prop) f l : StronglySorted R l -> StronglySorted R (filter f l).
Proof.
  induction 1 as [|x l HS IH HF]; cbn; [constructor|]. destruct (f x); [|assumption].
  constructor; [assumption|]. rewrite Forall_forall in *. intros y Hy. apply filter_In in Hy. apply HF. tauto.
Qed.
Lemma ssorted_nodup_off hs l : StronglySorted (fun x y => offOf hs x < offOf hs y) l -> NoDup (map (offOf hs) l).
Proof.
  induction 1 as [|x l HS IH HF]; cbn; constructor; [|assumption].
  intros C. apply in_map_iff in C as (y & E & Hy). rewrite Forall_forall in HF. specialize (HF _ Hy). lia.
Qed.

Definition evb (m i : nat) : bool := m <=? i.
Definition fEv (m : nat) (bs : list block) := filter (fun x => evb m (fst x)) bs.
Definition fKeep (m : nat) (bs : list block) := filter (fun x => negb (evb m (fst x))) bs.

Lemma map_filter_fst (f : nat -> bool) (bs : list block) :
  map fst (filter (fun x => f (fst x)) bs) = filter f (map fst bs).
Proof. induction bs as [|[i v] r IH]; cbn; [reflexivity|]. destruct (f i); cbn; now rewrite IH. Qed.
Lemma filter_perm {A} (f : A -> bool) a b : Permutation a b -> Permutation (filter f a) (filter f b).
Proof.
  induction 1; cbn.
  - constructor.
  - destruct (f x); auto.
  - destruct (f x), (f y); try reflexivity. apply perm_swap.
  - etransitivity; eassumption.
Qed.
Lemma filter_seq_ge m : forall n s, filter (evb m) (seq s n) = seq (Nat.max m s) (s + n - Nat.max m s).
Proof.
  induction n as [|n IH]; intros s; cbn [seq filter].
  - replace (s + 0 - Nat.max m s) with 0 by lia. reflexivity.
  - rewrite IH. unfold evb. destruct (Nat.leb_spec m s).
    + replace (Nat.max m s) with s by lia. replace (Nat.max m (S s)) with (S s) by lia.
      replace (s + S n - s) with (S n) by lia. cbn. f_equal. f_equal. lia.
    + replace (Nat.max m s) with m by lia. replace (Nat.max m (S s)) with m by lia. f_equal. lia.
Qed.
Lemma filter_seq_lt m : forall n s, filter (fun i => negb (evb m i)) (seq s n) = seq s (Nat.min n (m - s)).
Proof.
  induction n as [|n IH]; intros s; cbn [seq filter]; [reflexivity|].
  rewrite IH. unfold evb. destruct (Nat.leb_spec m s); cbn.
  - replace (m - S s) with 0 by lia. replace (m - s) with 0 by lia. now rewrite Nat.min_0_r.
  - destruct (m - s) as [|q] eqn:Eq; [lia|]. replace (m - S s) with q by lia. reflexivity.
Qed.

Lemma sort_evicted b l gap bs m : RepW b l gap bs -> m <= length l ->
  sortByOff b (rev (seq m (length l - m))) = map fst (fEv m bs).
Proof.
  intros R Hm. unfold fEv. rewrite map_filter_fst.
  destruct (Lay_sorted _ _ _ _ (rw_lay _ _ _ _ _ _ R)) as [S1 _].
  apply (ssorted_filter _ (evb m)) in S1.
  assert (P : Permutation (rev (seq m (length l - m))) (filter (evb m) (map fst bs))).
  { etransitivity; [apply Permutation_sym, Permutation_rev|]. apply Permutation_sym.
    etransitivity; [apply filter_perm, (rw_perm _ _ _ _ _ _ R)|]. rewrite filter_seq_ge.
    replace (Nat.max m 0) with m by lia. reflexivity. }
  apply (ssorted_unique (offOf (v_hdrs b))); [|exact S1|].
  - apply sortByOff_sorted. apply ssorted_nodup_off in S1.
    apply (Permutation_NoDup (l := map (offOf (v_hdrs b)) (filter (evb m) (map fst bs)))); [|assumption].
    apply Permutation_map, Permutation_sym, P.
  - etransitivity; [apply sortByOff_perm|exact P].
Qed.

(** ** Moving the chunks between evicted entries *)
Lemma fEv_app m a c : fEv m (a ++ c) = fEv m a ++ fEv m c. Proof. apply filter_app. Qed.
Lemma fKeep_app m a c : fKeep m (a ++ c) = fKeep m a ++ fKeep m c. Proof. apply filter_app. Qed.
Lemma fKeep_all m a : fEv m a = [] -> fKeep m a = a.
Proof.
  induction a as [|x a IH]; cbn; [reflexivity|]. unfold fEv, fKeep in *. cbn. destruct (evb m (fst x)); cbn; [discriminate|].
  intros H. f_equal. now apply IH.
Qed.
(** the last evicted block *)
Lemma last_ev m bs : fEv m bs = [] \/ exists a p v c, bs = a ++ (p, v) :: c /\ evb m p = true /\ fEv m c = [].
Proof.
  induction bs as [|[i v] r IH]; [now left|].
  destruct IH as [IH|(a & p & w & c & -> & H1 & H2)].
  - destruct (evb m i) eqn:E.
    + right. exists [], i, v, r. auto.
    + left. unfold fEv. cbn. rewrite E. exact IH.
  - right. exists ((i, v) :: a), p, w, c. auto.
Qed.
Definition endsEv m (L : list block) : Prop := L = [] \/ exists L0 p v, L = L0 ++ [(p, v)] /\ evb m p = true.

Lemma moveChunks_ok m l gap : forall arr L Rr J b dist,
  arr = rev (map fst (fEv m L)) -> endsEv m L ->
  v_data b = gap ++ eid L ++ J ++ eid Rr -> length J = dist ->
  firstOff hsz maxv b = length gap ->
  Lay (v_hdrs b) l (length gap) L -> Lay (v_hdrs b) l (length gap + elen L + dist) Rr ->
  NoDup (map fst (L ++ Rr)) -> Forall (fun x => fst x < 256) L ->
  exists b' J', moveChunks hsz maxv b arr dist = Some (b', dist + elen (fEv m L)) /\
    v_data b' = gap ++ J' ++ eid (fKeep m L ++ Rr) /\ length J' = dist + elen (fEv m L) /\
    v_total b' = v_total b /\ length (v_hdrs b') = length (v_hdrs b) /\
    Lay (v_hdrs b') l (length gap + length J') (fKeep m L ++ Rr).
Proof.
  induction arr as [|p rest IH]; intros L Rr J b dist EA EE ED EJ EF LL LR ND SM.
  - assert (L = []) as ->.
    { destruct EE as [|(L0 & p & v & -> & Hp)]; [assumption|]. rewrite fEv_app in EA.
      unfold fEv at 2 in EA. cbn in EA. rewrite Hp in EA. cbn in EA. rewrite map_app, rev_app_distr in EA. discriminate. }
    exists b, J. cbn in *. rewrite Nat.add_0_r in *. rewrite EJ. auto 10.
  - destruct EE as [->|(L0 & p' & v & -> & Hp)]; [discriminate|].
    assert (EV : fEv m (L0 ++ [(p', v)]) = fEv m L0 ++ [(p', v)]).
    { rewrite fEv_app. unfold fEv at 2. cbn. now rewrite Hp. }
    assert (KV : fKeep m (L0 ++ [(p', v)]) = fKeep m L0).
    { rewrite fKeep_app. unfold fKeep at 2. cbn. rewrite Hp. cbn. apply app_nil_r. }
    rewrite EV, map_app, rev_app_distr in EA. cbn in EA. injection EA as Ep Er. subst p'.
    apply Lay_app in LL as [LL1 LL2]. cbn [Lay] in LL2. destruct LL2 as [(k & A1 & A2) _].
    cbn [moveChunks]. rewrite A1. cbn [h_size h_off].
    set (dist' := dist + length v + 1).
    rewrite elen_app, elen_cons in LR. change (elen []) with 0 in LR.
    set (Jp := encB (fun i => i) (p, v) ++ J).
    assert (LJp : length Jp = dist') by (unfold Jp, dist'; rewrite app_length; cbn; lia).
    (* the chunk to move *)
    assert (HC : exists Lq C, L0 = Lq ++ C /\ fEv m C = [] /\ endsEv m Lq /\
       (match rest with
        | [] => Some (firstOff hsz maxv b)
        | q :: _ => let* h' := nth_error (v_hdrs b) q in Some (h_off h' + h_size h' + 1)
        end) = Some (length gap + elen Lq)).
    { destruct (last_ev m L0) as [HN|(a & q & w & c & E0 & Hq & Hc)].
      - exists [], L0. rewrite HN in Er. cbn in Er. subst rest. rewrite EF. unfold endsEv. cbn. rewrite Nat.add_0_r. auto.
      - exists (a ++ [(q, w)]), c. rewrite E0 in Er.
        assert (EQ : fEv m (a ++ (q, w) :: c) = fEv m a ++ [(q, w)]).
        { rewrite fEv_app. f_equal. unfold fEv in *. cbn. rewrite Hq, Hc. reflexivity. }
        rewrite EQ, map_app, rev_app_distr in Er. cbn in Er. subst rest.
        rewrite E0 in LL1. apply Lay_app in LL1 as [_ LL1]. destruct LL1 as [(kq & B1 & B2) _].
        rewrite B1. cbn [h_off h_size]. rewrite <- app_assoc. cbn. split; [assumption|]. split; [assumption|]. split.
        + right. exists a, q, w. auto.
        + f_equal. rewrite elen_app, elen_cons. cbn. lia. }
    destruct HC as (Lq & C & EL & HC1 & HC2 & ->). subst L0.
    rewrite elen_app in A1, LR |- *.
    destruct (Nat.ltb_spec (length gap + (elen Lq + elen C)) (length gap + elen Lq)); [lia|].
    replace (length gap + (elen Lq + elen C) - (length gap + elen Lq)) with (elen C) by lia.
    assert (E3 : fEv m (Lq ++ C) = fEv m Lq) by (rewrite fEv_app, HC1, app_nil_r; reflexivity).
    assert (E4 : fKeep m (Lq ++ C) = fKeep m Lq ++ C) by (rewrite fKeep_app, (fKeep_all m C HC1); reflexivity).
    rewrite E3 in Er, EV. rewrite E4 in KV.
    apply Lay_app in LL1 as [LQ LC].
    assert (ND1 : NoDup (map fst (Lq ++ C ++ Rr))).
    { rewrite <- !app_assoc in ND. cbn in ND. rewrite !map_app in *. cbn in ND. rewrite app_assoc in *.
      now apply NoDup_remove_1 in ND. }
    apply Forall_app in SM as [SM _]. apply Forall_app in SM as [SM1 SM2].
    (* state after the (possibly empty) shift *)
    assert (HS : exists b1 J1, (if elen C =? 0 then moveChunks hsz maxv b rest dist'
                else let* b' := shiftEntriesData b (length gap + elen Lq) dist' (elen C) in moveChunks hsz maxv b' rest dist')
              = moveChunks hsz maxv b1 rest dist' /\
              v_data b1 = gap ++ eid Lq ++ J1 ++ eid (C ++ Rr) /\ length J1 = dist' /\ v_total b1 = v_total b /\
              length (v_hdrs b1) = length (v_hdrs b) /\ Lay (v_hdrs b1) l (length gap) Lq /\
              Lay (v_hdrs b1) l (length gap + elen Lq + dist') (C ++ Rr)).
    { assert (DD : v_data b = (gap ++ eid Lq) ++ eid C ++ Jp ++ eid Rr).
      { rewrite ED. unfold Jp. rewrite !enc_app.
        change (eid [(p, v)]) with (encB (fun i => i) (p, v) ++ []). rewrite app_nil_r, <- !app_assoc. reflexivity. }
      destruct (Nat.eqb_spec (elen C) 0) as [EC|EC].
      - assert (C = []) as -> by (destruct C as [|[ci cv] C]; [reflexivity|rewrite elen_cons in EC; lia]).
        exists b, Jp. rewrite DD, <- app_assoc. cbn. repeat split; auto.
        replace (length gap + elen Lq + dist') with (length gap + (elen Lq + elen [] + (S (length v) + 0)) + dist) by (unfold dist'; cbn; lia).
        exact LR.
      - assert (LG : length (gap ++ eid Lq) = length gap + elen Lq) by (rewrite app_length, enc_len; reflexivity).
        destruct (shift_ok l dist' C (gap ++ eid Lq) Jp (eid Rr) b DD LJp) as (b1 & J1 & E1 & D1 & LJ1 & T1 & H1 & LY1 & NN1).
        { rewrite LG. exact LC. }
        { rewrite !map_app in ND1. rewrite app_assoc in ND1. apply nodup_l in ND1.
          apply NoDup_rev in ND1. rewrite rev_app_distr in ND1. apply nodup_l in ND1.
          rewrite <- (rev_involutive (map fst C)). now apply NoDup_rev. }
        { exact SM2. }
        rewrite LG in E1, LY1. rewrite E1. exists b1, J1. rewrite D1, enc_app, <- app_assoc.
        repeat split; auto.
        + apply (Lay_ext (v_hdrs b) l); [|exact LQ]. intros i Hi. split; [|reflexivity]. apply NN1. intros Cn.
          rewrite map_app in ND1. apply (nodup_disj _ _ i ND1 Hi). rewrite map_app, in_app_iff. now left.
        + apply Lay_app. split; [exact LY1|]. apply (Lay_ext (v_hdrs b) l).
          * intros i Hi. split; [|reflexivity]. apply NN1. intros Cn.
            rewrite !map_app in ND1. rewrite app_assoc in ND1. apply (nodup_disj _ _ i ND1); [apply in_or_app; now right|assumption].
          * replace (length gap + elen Lq + dist' + elen C) with (length gap + (elen Lq + elen C + (S (length v) + 0)) + dist)
              by (unfold dist'; lia). exact LR. }
    destruct HS as (b1 & J1 & -> & D1 & LJ1 & T1 & H1 & LQ1 & LR1).
    destruct (IH Lq (C ++ Rr) J1 b1 dist') as (b' & J' & E' & D' & LJ' & T' & H' & LY'); auto.
    { unfold firstOff in *. rewrite T1. exact EF. }
    exists b', J'. rewrite E', EV, KV, <- !app_assoc, elen_app, elen_cons, T', H', T1, H1. change (elen []) with 0.
    assert (EQ : dist' + elen (fEv m Lq) = dist + (elen (fEv m Lq) + (S (length v) + 0))) by (unfold dist'; lia).
    rewrite <- EQ. repeat split; auto.
Qed.
End Evict.
