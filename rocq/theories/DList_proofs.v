From Coq Require Import List Arith Bool Lia.
Import ListNotations.
From Verif Require Import DList_model DList_spec.

Definition firstOr (l : list node) (nx : ptr) : ptr := match l with [] => nx | x :: _ => Some x end.
Fixpoint lastOr (l : list node) (p : ptr) : ptr := match l with [] => p | x :: r => lastOr r (Some x) end.

(** [seg h p l nx]: the nodes [l] are chained, the first one's prev is [p], the last one's
    next is [nx]. *)
Fixpoint seg (h : heap) (p : ptr) (l : list node) (nx : ptr) : Prop :=
  match l with
  | [] => True
  | x :: r => prv h x = p /\ nxt h x = firstOr r nx /\ seg h (Some x) r nx
  end.

Definition rep (h : heap) (d : dlist) (l : list node) : Prop :=
  NoDup l /\ seg h None l None /\ head d = firstOr l None /\ tail d = lastOr l None /\ size d = length l.

Lemma firstOr_app a b nx : firstOr (a ++ b) nx = firstOr a (firstOr b nx).
Proof. destruct a; reflexivity. Qed.
Lemma lastOr_app a b p : lastOr (a ++ b) p = lastOr b (lastOr a p).
Proof. revert p. induction a; simpl; auto. Qed.
Lemma lastOr_snoc a x p : lastOr (a ++ [x]) p = Some x.
Proof. rewrite lastOr_app. reflexivity. Qed.
Lemma lastOr_in l p y : lastOr l p = Some y -> In y l \/ (l = [] /\ p = Some y).
Proof.
  revert p. induction l as [|x r IH]; simpl; auto. intros p H.
  destruct (IH _ H) as [I|[-> E]]; auto. inversion E; auto.
Qed.

Lemma seg_app h a : forall p b nx,
  seg h p (a ++ b) nx <-> seg h p a (firstOr b nx) /\ seg h (lastOr a p) b nx.
Proof.
  induction a as [|x r IH]; intros p b nx; simpl; [tauto|].
  rewrite firstOr_app, IH. tauto.
Qed.

Lemma seg_frame h h' l : forall p nx,
  (forall x, In x l -> nxt h' x = nxt h x /\ prv h' x = prv h x) ->
  seg h p l nx -> seg h' p l nx.
Proof.
  induction l as [|x r IH]; intros p nx F; simpl; auto. intros (A & B & C).
  destruct (F x (or_introl eq_refl)) as [F1 F2]. rewrite F1, F2. repeat split; auto.
  apply IH; auto. intros y Hy. apply F. now right.
Qed.

Lemma upd_same f n v : upd f n v n = v.
Proof. unfold upd. now rewrite Nat.eqb_refl. Qed.
Lemma upd_other f n v x : x <> n -> upd f n v x = f x.
Proof. unfold upd. intros. destruct (Nat.eqb_spec x n); [contradiction|auto]. Qed.

Ltac upds := repeat first [rewrite upd_same | rewrite upd_other by congruence].

Lemma seg_setPrev_first h x r p p' nx : ~ In x r ->
  seg h p (x :: r) nx -> seg (setPrev h x p') p' (x :: r) nx.
Proof.
  intros N (A & B & C). simpl. rewrite upd_same. repeat split; auto.
  eapply seg_frame; [|exact C]. intros y Hy. simpl. split; auto. apply upd_other. intros ->. auto.
Qed.
Lemma seg_setNext_last h a x p nx nx' : ~ In x a ->
  seg h p (a ++ [x]) nx -> seg (setNext h x nx') p (a ++ [x]) nx'.
Proof.
  intros N H. apply seg_app in H as [H1 H2]. apply seg_app. split.
  - simpl firstOr in *. eapply seg_frame; [|exact H1]. intros y Hy. simpl. split; auto.
    apply upd_other. intros ->. auto.
  - destruct H2 as (A & B & _). simpl. rewrite upd_same. auto.
Qed.

Definition others_same (h h' : heap) (l : list node) : Prop :=
  forall x, ~ In x l -> nxt h' x = nxt h x /\ prv h' x = prv h x.

Lemma lastOr_none l p : lastOr l p = None -> l = [] /\ p = None.
Proof.
  revert p. induction l as [|x r IH]; simpl; auto. intros p H. destruct (IH _ H); discriminate.
Qed.
Lemma list_snoc {A} (l : list A) : l = [] \/ exists a x, l = a ++ [x].
Proof.
  induction l as [|y r IH] using rev_ind; [auto|]. right. eauto.
Qed.

Lemma linkAtHead_ok h d l n : rep h d l -> ~ In n l ->
  let '(h', d') := linkAtHead h d n in rep h' d' (n :: l) /\ others_same h h' (n :: l).
Proof.
  intros (ND & S & H & T & Z) N. unfold linkAtHead. rewrite H.
  split.
  - split; [constructor; auto|]. split.
    + destruct l as [|x r].
      * simpl. rewrite !upd_same. auto.
      * simpl firstOr. inversion ND as [|? ? Nx NDr]; subst. 
        assert (xn : x <> n) by (intros ->; apply N; left; auto).
        cbn [seg]. split.
        { simpl. rewrite upd_other by auto. apply upd_same. }
        split. { simpl. apply upd_same. }
        apply seg_setPrev_first with (p := None); auto.
        eapply seg_frame; [|exact S]. intros y Hy. simpl.
        rewrite !upd_other; auto; intros ->; auto.
    + simpl. repeat split; auto.
      * rewrite T. destruct l as [|x r]; [reflexivity|].
        simpl. destruct (lastOr r (Some x)) eqn:E; auto.
        apply lastOr_none in E as [_ E]. discriminate.
  - intros y Hy. destruct l as [|x r]; simpl.
    + simpl in Hy. rewrite !upd_other; auto.
    + simpl in Hy. rewrite !upd_other; auto.
Qed.

Lemma linkAtTail_ok h d l n : rep h d l -> ~ In n l ->
  let '(h', d') := linkAtTail h d n in rep h' d' (l ++ [n]) /\ others_same h h' (n :: l).
Proof.
  intros (ND & S & H & T & Z) N. unfold linkAtTail. rewrite T.
  destruct (list_snoc l) as [->|(a & x & ->)].
  - simpl in *. split.
    + split; [constructor; auto; constructor|]. simpl. rewrite !upd_same, H, Z. auto.
    + intros y Hy. simpl in *. rewrite !upd_other; auto.
  - rewrite lastOr_snoc. 
    assert (xn : x <> n) by (intros ->; apply N; apply in_or_app; right; left; auto).
    assert (xa : ~ In x a).
    { apply NoDup_remove_2 in ND. rewrite app_nil_r in ND. auto. }
    split.
    + split.
      { assert (P : NoDup ((a ++ [x]) ++ n :: [])).
        { apply NoDup_rev in ND. rewrite <- (rev_involutive ((a ++ [x]) ++ [n])). apply NoDup_rev.
          rewrite rev_app_distr. simpl. constructor; auto. rewrite <- in_rev. auto. }
        exact P. }
      split.
      * apply seg_app. split.
        -- simpl firstOr. apply seg_setNext_last with (nx := None); auto.
           eapply seg_frame; [|exact S]. intros y Hy. simpl.
           rewrite !upd_other; auto; intros ->; auto.
        -- rewrite lastOr_snoc. simpl. rewrite upd_same. rewrite upd_other by auto. rewrite upd_same. auto.
      * cbn [head tail size]. rewrite lastOr_snoc, H, Z. rewrite firstOr_app. simpl firstOr.
        split; [|split; auto].
        -- destruct a; reflexivity.
        -- rewrite !app_length. simpl. lia.
  + intros y Hy. simpl in *. rewrite in_app_iff in Hy. simpl in Hy. rewrite !upd_other; auto;
      intros ->; intuition.
Qed.

Lemma seg_mid h p a x b nx : seg h p (a ++ x :: b) nx ->
  prv h x = lastOr a p /\ nxt h x = firstOr b nx.
Proof. intros H. apply seg_app in H as [_ (A & B & _)]. auto. Qed.

Lemma nodup_mid (a b : list node) x : NoDup (a ++ x :: b) ->
  ~ In x a /\ ~ In x b /\ NoDup (a ++ b) /\ (forall y, In y a -> ~ In y b).
Proof.
  intros H. assert (H2 := NoDup_remove_2 _ _ _ H). assert (H1 := NoDup_remove_1 _ _ _ H).
  rewrite in_app_iff in H2. repeat split; auto.
  intros y Ha Hb. clear H H2. induction a as [|z a IH]; [destruct Ha|].
  simpl in H1. inversion H1; subst. destruct Ha as [->|Ha]; auto. apply H2. apply in_or_app; auto.
Qed.

Lemma insertBefore_ok h d a x b n : rep h d (a ++ x :: b) -> ~ In n (a ++ x :: b) ->
  let '(h', d') := insertBefore h d x n in
  rep h' d' (a ++ n :: x :: b) /\ others_same h h' (n :: a ++ x :: b).
Proof.
  intros (ND & S & H & T & Z) N. unfold insertBefore.
  destruct (seg_mid _ _ _ _ _ _ S) as [P Q]. rewrite P.
  assert (xn : x <> n) by (intros ->; apply N; apply in_or_app; right; left; auto).
  assert (na : ~ In n a) by (intros I; apply N; apply in_or_app; auto).
  assert (nb : ~ In n b) by (intros I; apply N; apply in_or_app; right; right; auto).
  destruct (nodup_mid _ _ _ ND) as (xa & xb & ND' & AB).
  assert (ND2 : NoDup (a ++ n :: x :: b)).
  { assert (X := NoDup_Add (Add_app n a (x :: b))). apply X. split; auto. }
  apply seg_app in S as [S1 S2]. simpl firstOr in S1.
  destruct (list_snoc a) as [->|(a' & y & ->)].
  - simpl lastOr. simpl in *. split.
    + split; [auto|]. simpl. upds.
      destruct S2 as (A & B & C). repeat split; auto.
      * eapply seg_frame; [|exact C]. intros z Hz. simpl.
        rewrite !upd_other; auto; intros ->; auto.
    + intros z Hz. simpl in *. rewrite !upd_other; auto.
  - rewrite lastOr_snoc. 
    assert (ya : ~ In y a').
    { rewrite <- app_assoc in ND. simpl in ND. apply nodup_mid in ND. tauto. }
    assert (yx : y <> x) by (intros ->; apply xa; apply in_or_app; right; left; auto).
    assert (yn : y <> n) by (intros ->; apply na; apply in_or_app; right; left; auto).
    assert (yb : ~ In y b) by (apply AB; apply in_or_app; right; left; auto).
    split.
    + split; [auto|]. split.
      * apply seg_app. split.
        -- simpl firstOr.
           apply (seg_frame (setNext h y (Some n))).
           ++ intros z Hz. simpl. assert (z <> n) by (intros ->; auto). assert (z <> x) by (intros ->; auto).
              rewrite !(upd_other _ n) by auto. rewrite !(upd_other _ x) by auto.
              rewrite !(upd_other _ n) by auto. auto.
           ++ apply seg_setNext_last with (nx := Some x); auto.
        -- rewrite lastOr_snoc. simpl. upds.
           destruct S2 as (A & B & C). repeat split; auto.
           eapply seg_frame; [|exact C]. intros z Hz. simpl.
           rewrite !upd_other; auto; intros ->; auto.
      * simpl. rewrite H, T, Z. repeat split.
        -- rewrite !firstOr_app. destruct a'; reflexivity.
        -- rewrite !lastOr_app. reflexivity.
        -- rewrite !app_length. simpl. lia.
    + intros z Hz. simpl in Hz. rewrite !in_app_iff in Hz. simpl in *.
      rewrite !upd_other; auto; intros ->; intuition.
Qed.

Lemma isPtr_spec p n : isPtr p n = true <-> p = Some n.
Proof.
  unfold isPtr. destruct p; [|split; discriminate]. rewrite Nat.eqb_eq. split; congruence.
Qed.
Lemma isPtr_false p n : p <> Some n -> isPtr p n = false.
Proof. intros H. destruct (isPtr p n) eqn:E; auto. apply isPtr_spec in E. contradiction. Qed.

(** unlink: the rest is a list; the node itself keeps its stale links. *)
Lemma unlink_ok h d a x b : rep h d (a ++ x :: b) ->
  let '(h', d') := unlink h d x in
  rep h' d' (a ++ b) /\ others_same h h' (a ++ b).
Proof.
  intros (ND & S & H & T & Z). unfold unlink.
  destruct (seg_mid _ _ _ _ _ _ S) as [P Q].
  destruct (nodup_mid _ _ _ ND) as (xa & xb & ND' & AB).
  apply seg_app in S as [S1 S2]. simpl firstOr in S1. destruct S2 as (_ & _ & S2).
  assert (Hh : (if isPtr (head d) x then nxt h x else head d) = firstOr (a ++ b) None).
  { rewrite H, Q. rewrite !firstOr_app. destruct a as [|y a']; simpl.
    - now rewrite Nat.eqb_refl.
    - destruct (Nat.eqb_spec y x); auto. subst. exfalso. apply xa. now left. }
  assert (Ht : (if isPtr (tail d) x then prv h x else tail d) = lastOr (a ++ b) None).
  { rewrite T, P. rewrite !lastOr_app. cbn [lastOr].
    destruct (list_snoc b) as [->|(b' & y & ->)].
    - simpl. now rewrite Nat.eqb_refl.
    - rewrite !lastOr_snoc. rewrite isPtr_false; auto.
      intros E. inversion E; subst. apply xb. apply in_or_app; right; left; auto. }
  rewrite Hh, Ht. rewrite P, Q.
  assert (Hz : size d - 1 = length (a ++ b)) by (rewrite Z, !app_length; simpl; lia).
  rewrite Hz.
  destruct (list_snoc a) as [->|(a' & y & ->)]; destruct b as [|z b'].
  - simpl. split; [|intros ? _; auto]. split; [auto|]. simpl. auto.
  - cbn [lastOr firstOr]. simpl app in *. 
    assert (zb : ~ In z b') by (inversion ND'; auto).
    split.
    + split; [auto|]. split; [|auto]. rewrite P. simpl lastOr. apply seg_setPrev_first with (p := Some x); auto.
    + intros w Hw. simpl in *. rewrite !upd_other; auto.
  - rewrite lastOr_snoc. cbn [firstOr]. rewrite app_nil_r in *. 
    assert (ya : ~ In y a') by (apply nodup_mid in ND'; tauto).
    split.
    + split; [auto|]. split; [|auto]. apply seg_setNext_last with (nx := Some x); auto.
    + intros w Hw. simpl. rewrite in_app_iff in Hw. simpl in Hw. rewrite !upd_other; auto.
  - rewrite lastOr_snoc. cbn [firstOr].
    assert (ya : ~ In y a').
    { rewrite <- app_assoc in ND'. simpl in ND'. apply nodup_mid in ND'. tauto. }
    assert (zb : ~ In z b').
    { apply nodup_mid in ND'. tauto. }
    assert (za : ~ In z (a' ++ [y])).
    { intros I. apply (AB z I). now left. }
    assert (yb : ~ In y (z :: b')).
    { apply AB. apply in_or_app; right; left; auto. }
    assert (xy : x <> y) by (intros ->; apply xa; apply in_or_app; right; left; auto).
    split.
    + split; [auto|]. split; [|auto].
      apply seg_app. split.
      * simpl firstOr. apply (seg_frame (setNext h y (Some z))).
        -- intros w Hw. simpl. split; auto. apply upd_other. intros ->. auto.
        -- apply seg_setNext_last with (nx := Some x); auto.
      * rewrite lastOr_snoc. cbn [setNext prv]. rewrite P, lastOr_snoc.
        apply seg_setPrev_first with (p := Some x); auto.
        eapply seg_frame; [|exact S2]. intros w Hw. simpl. split; auto.
        apply upd_other. intros ->. auto.
    + intros w Hw. simpl. rewrite !in_app_iff in Hw. simpl in Hw. rewrite !upd_other; auto; intros ->; intuition.
Qed.

Lemma remove_ok h d a x b : rep h d (a ++ x :: b) ->
  let '(h', d') := remove h d x in
  rep h' d' (a ++ b) /\ nxt h' x = None /\ prv h' x = None /\ others_same h h' (a ++ x :: b).
Proof.
  intros R. unfold remove. pose proof (unlink_ok h d a x b R) as U.
  destruct (unlink h d x) as [h1 d1]. destruct U as [(ND & S & H & T & Z) O].
  destruct R as (ND0 & _). destruct (nodup_mid _ _ _ ND0) as (xa & xb & _ & _).
  assert (xab : ~ In x (a ++ b)) by (rewrite in_app_iff; tauto).
  split; [|split; [|split]].
  - split; [auto|]. split; [|auto]. eapply seg_frame; [|exact S].
    intros y Hy. simpl. rewrite !upd_other; auto; intros ->; auto.
  - simpl. apply upd_same.
  - simpl. apply upd_same.
  - intros y Hy. rewrite in_app_iff in Hy. simpl in Hy.
    assert (y <> x) by (intros ->; intuition). simpl. rewrite !upd_other by auto. apply O.
    rewrite in_app_iff. intuition.
Qed.

Lemma replace_ok h d a x b n : rep h d (a ++ x :: b) -> ~ In n (a ++ x :: b) ->
  let '(h', d') := replace h d x n in
  rep h' d' (a ++ n :: b) /\ nxt h' x = None /\ prv h' x = None /\
  others_same h h' (n :: a ++ x :: b).
Proof.
  intros (ND & S & H & T & Z) N. unfold replace.
  destruct (seg_mid _ _ _ _ _ _ S) as [P Q]. rewrite P, Q.
  assert (xn : x <> n) by (intros ->; apply N; apply in_or_app; right; left; auto).
  assert (na : ~ In n a) by (intros I; apply N; apply in_or_app; auto).
  assert (nb : ~ In n b) by (intros I; apply N; apply in_or_app; right; right; auto).
  destruct (nodup_mid _ _ _ ND) as (xa & xb & ND' & AB).
  assert (ND2 : NoDup (a ++ n :: b)).
  { apply (NoDup_Add (Add_app n a b)). split; auto. rewrite in_app_iff. tauto. }
  apply seg_app in S as [S1 S2]. simpl firstOr in S1. destruct S2 as (_ & _ & S2).
  assert (Hh : (if isPtr (head d) x then Some n else head d) = firstOr (a ++ n :: b) None).
  { rewrite H. rewrite !firstOr_app. destruct a as [|y a']; simpl.
    - now rewrite Nat.eqb_refl.
    - destruct (Nat.eqb_spec y x); auto. subst. exfalso. apply xa. now left. }
  assert (Ht : (if isPtr (tail d) x then Some n else tail d) = lastOr (a ++ n :: b) None).
  { rewrite T. rewrite !lastOr_app. cbn [lastOr].
    destruct (list_snoc b) as [->|(b' & y & ->)].
    - simpl. now rewrite Nat.eqb_refl.
    - rewrite !lastOr_snoc. rewrite isPtr_false; auto.
      intros E. inversion E; subst. apply xb. apply in_or_app; right; left; auto. }
  rewrite Hh, Ht.
  set (h1 := match lastOr a None with Some p => setNext h p (Some n) | None => h end).
  set (h2 := match firstOr b None with Some y => setPrev h1 y (Some n) | None => h1 end).
  assert (A1 : seg h1 None a (Some n)).
  { unfold h1. destruct (list_snoc a) as [->|(a' & y & ->)]; [exact I|].
    rewrite lastOr_snoc. apply seg_setNext_last with (nx := Some x); auto.
    rewrite <- app_assoc in ND'. simpl in ND'. apply nodup_mid in ND'. tauto. }
  assert (O1 : others_same h h1 a).
  { unfold h1. intros w Hw. destruct (lastOr a None) as [p|] eqn:E; auto.
    apply lastOr_in in E as [E|[_ E]]; [|discriminate]. simpl. split; auto. apply upd_other.
    intros ->. auto. }
  assert (B1 : seg h1 (Some x) b None).
  { eapply seg_frame; [|exact S2]. intros y Hy. apply O1. intros I. exact (AB _ I Hy). }
  assert (B2 : seg h2 (Some n) b None).
  { unfold h2. destruct b as [|z b']; [exact I|]. simpl firstOr.
    apply seg_setPrev_first with (p := Some x); auto.
    apply nodup_mid in ND'. tauto. }
  assert (O2 : others_same h1 h2 b).
  { unfold h2. destruct b as [|z b']; [intros ? _; auto|]. intros w Hw. simpl in *. split; auto.
    apply upd_other. intros ->. auto. }
  assert (A2 : seg h2 None a (Some n)).
  { eapply seg_frame; [|exact A1]. intros y Hy. apply O2. auto. }
  split; [|split; [|split]].
  - split; [auto|]. split.
    + apply seg_app. split.
      * simpl firstOr. eapply seg_frame; [|exact A2]. intros y Hy.
        simpl. rewrite !upd_other; auto; intros ->; auto.
      * simpl. upds. repeat split; auto.
        eapply seg_frame; [|exact B2]. intros y Hy.
        simpl. rewrite !upd_other; auto; intros ->; auto.
    + cbn [head tail size]. rewrite Z. repeat split; auto. rewrite !app_length. simpl. lia.
  - simpl. apply upd_same.
  - simpl. apply upd_same.
  - intros y Hy. simpl in Hy. rewrite in_app_iff in Hy. simpl in Hy.
    assert (y <> x) by (intros ->; intuition). assert (y <> n) by (intros ->; intuition).
    simpl. rewrite !upd_other by auto.
    destruct (O1 y) as [X1 X2]; [intuition|]. destruct (O2 y) as [Y1 Y2]; [intuition|].
    rewrite Y1, Y2, X1, X2. auto.
Qed.

Lemma moveToHead_ok h d a x b : rep h d (a ++ x :: b) ->
  let '(h', d') := moveToHead h d x in
  rep h' d' (x :: a ++ b) /\ others_same h h' (a ++ x :: b).
Proof.
  intros R. pose proof R as (ND & S & H & T & Z). unfold moveToHead.
  destruct (nodup_mid _ _ _ ND) as (xa & xb & ND' & AB).
  destruct a as [|y a'].
  - rewrite H. simpl. rewrite Nat.eqb_refl. split; [exact R|]. intros ? _. auto.
  - rewrite H. simpl isPtr. destruct (Nat.eqb_spec y x) as [->|n].
    { exfalso. apply xa. now left. }
    pose proof (unlink_ok h d (y :: a') x b R) as U. destruct (unlink h d x) as [h1 d1].
    destruct U as [R1 O1].
    assert (xi : ~ In x ((y :: a') ++ b)) by (rewrite in_app_iff; tauto).
    pose proof (linkAtHead_ok h1 d1 _ x R1 xi) as L. destruct (linkAtHead h1 d1 x) as [h2 d2].
    destruct L as [R2 O2]. split; [exact R2|].
    intros w Hw. rewrite in_app_iff in Hw. simpl in Hw.
    destruct (O1 w) as [X1 X2]; [simpl; rewrite in_app_iff; intuition|].
    destruct (O2 w) as [Y1 Y2]; [simpl; rewrite in_app_iff; intuition|].
    rewrite Y1, Y2. auto.
Qed.

(** Walks. *)
Lemma walkNext_seg h l : forall p, seg h p l None -> forall fuel, length l <= fuel ->
  walkNext fuel h (firstOr l None) = Some l.
Proof.
  induction l as [|x r IH]; intros p S fuel F; simpl.
  - destruct fuel; reflexivity.
  - simpl in F. destruct fuel; [lia|]. simpl. destruct S as (A & B & C). rewrite B.
    rewrite (IH (Some x) C) by lia. reflexivity.
Qed.
Lemma walkPrev_seg h l : forall nx, seg h None l nx -> forall fuel, length l <= fuel ->
  walkPrev fuel h (lastOr l None) = Some (rev l).
Proof.
  induction l as [|x r IH] using rev_ind; intros nx S fuel F.
  - destruct fuel; reflexivity.
  - rewrite app_length in F. simpl in F. destruct fuel; [lia|].
    rewrite lastOr_snoc, rev_app_distr. simpl.
    apply seg_app in S as [S1 S2]. destruct S2 as (A & B & C). rewrite A.
    rewrite (IH _ S1) by lia. reflexivity.
Qed.
Lemma rep_walk h d l : rep h d l ->
  walkNext (size d) h (head d) = Some l /\ walkPrev (size d) h (tail d) = Some (rev l) /\ size d = length l.
Proof.
  intros (ND & S & H & T & Z). rewrite H, T, Z. repeat split.
  - eapply walkNext_seg; eauto.
  - eapply walkPrev_seg; eauto.
Qed.

(** Spec-level list facts. *)
Lemma remove_node_notin l n : ~ In n l -> remove_node l n = l.
Proof.
  induction l as [|x r IH]; simpl; auto. intros H. destruct (Nat.eqb_spec x n).
  - subst. exfalso; auto.
  - simpl. f_equal. apply IH. auto.
Qed.
Lemma remove_node_mid a x b : ~ In x a -> ~ In x b -> remove_node (a ++ x :: b) x = a ++ b.
Proof.
  intros A B. pose proof (remove_node_notin a x A) as E1. pose proof (remove_node_notin b x B) as E2.
  unfold remove_node in *. rewrite filter_app. simpl. rewrite Nat.eqb_refl. simpl.
  first [exact (f_equal2 (@app _) E1 E2) | exact (f_equal2 (fun u v => u ++ n :: v) E1 E2)].
Qed.
Lemma replace_node_notin l o n : ~ In o l -> replace_node l o n = l.
Proof.
  induction l as [|x r IH]; simpl; auto. intros H. destruct (Nat.eqb_spec x o).
  - subst. exfalso; auto.
  - f_equal. apply IH. auto.
Qed.
Lemma replace_node_mid a x b n : ~ In x a -> ~ In x b -> replace_node (a ++ x :: b) x n = a ++ n :: b.
Proof.
  intros A B. pose proof (replace_node_notin a x n A) as E1. pose proof (replace_node_notin b x n B) as E2.
  unfold replace_node in *. rewrite map_app. simpl. rewrite Nat.eqb_refl.
  first [exact (f_equal2 (@app _) E1 E2) | exact (f_equal2 (fun u v => u ++ n :: v) E1 E2)].
Qed.
Lemma insert_before_mid a x b n : ~ In x a -> insert_before (a ++ x :: b) x n = a ++ n :: x :: b.
Proof.
  induction a as [|y a IH]; simpl; intros H.
  - now rewrite Nat.eqb_refl.
  - destruct (Nat.eqb_spec y x); [subst; exfalso; auto|]. f_equal. auto.
Qed.

(** ** The world invariant *)
Definition wrep (w : world) (s : seqs) : Prop :=
  (forall i, rep (wheap w) (wlist w i) (s i)) /\
  (forall i j x, In x (s i) -> In x (s j) -> i = j) /\
  (forall x, unlinked s x -> nxt (wheap w) x = None /\ prv (wheap w) x = None).

(** Generic update of one list by an operation touching only that list's nodes and an
    optional new node. *)
Lemma world_update w s i h' d' l' touched :
  wrep w s -> rep h' d' l' ->
  others_same (wheap w) h' touched ->
  (forall x, In x touched -> In x (s i) \/ unlinked s x) ->
  (forall x, In x l' -> In x (s i) \/ unlinked s x) ->
  (forall x, In x touched -> ~ In x l' -> nxt h' x = None /\ prv h' x = None) ->
  (forall x, In x (s i) -> In x l' \/ In x touched) ->
  wrep {| wheap := h'; wlist := setList (wlist w) i d' |} (set_seq s i l').
Proof.
  intros (W1 & W2 & W3) R O Ht Hl Hn Hk. split; [|split].
  - intros j. simpl. unfold setList, set_seq. destruct (Nat.eqb_spec j i) as [->|n]; [exact R|].
    destruct (W1 j) as (A & B & C & D & E). split; [auto|]. split; [|auto].
    eapply seg_frame; [|exact B]. intros x Hx. apply O. intros T.
    destruct (Ht x T) as [X|X]; [|exact (X j Hx)]. apply n. eapply W2; eauto.
  - intros j k x. unfold set_seq. destruct (Nat.eqb_spec j i) as [->|nj], (Nat.eqb_spec k i) as [->|nk]; auto.
    + intros A B. destruct (Hl x A) as [X|X]; [|exfalso; exact (X k B)]. eapply W2; eauto.
    + intros A B. destruct (Hl x B) as [X|X]; [|exfalso; exact (X j A)]. eapply W2; eauto.
    + apply W2.
  - intros x U. simpl.
    assert (Ui : ~ In x l').
    { specialize (U i). unfold set_seq in U. now rewrite Nat.eqb_refl in U. }
    destruct (in_dec Nat.eq_dec x touched) as [T|T]; [auto|].
    destruct (O x T) as [-> ->]. apply W3. intros j Hj.
    destruct (Nat.eq_dec j i) as [->|n].
    + destruct (Hk x Hj); contradiction.
    + specialize (U j). unfold set_seq in U. destruct (Nat.eqb_spec j i); [contradiction|auto].
Qed.

Lemma call_ok w s c : wrep w s -> legal s c -> wrep (doCall w c) (spec_call s c).
Proof.
  intros W L. pose proof W as (W1 & W2 & W3).
  destruct c as [i n|i n|i x n|i n|i o n|i n]; cbn [legal spec_call doCall] in *.
  - pose proof (linkAtHead_ok _ _ _ n (W1 i) (L i)) as H.
    destruct (linkAtHead (wheap w) (wlist w i) n) as [h' d']. destruct H as [R O].
    eapply world_update; eauto.
    + intros x [<-|I]; auto.
    + intros x [<-|I]; auto.
    + intros x I NI. exfalso; auto.
    + intros x I. left; right; auto.
  - pose proof (linkAtTail_ok _ _ _ n (W1 i) (L i)) as H.
    destruct (linkAtTail (wheap w) (wlist w i) n) as [h' d']. destruct H as [R O].
    eapply world_update; eauto.
    + intros x [<-|I]; auto.
    + intros x I. apply in_app_or in I as [I|[<-|[]]]; auto.
    + intros x [<-|I] NI; exfalso; apply NI; apply in_or_app; [right; left; auto|left; auto].
    + intros x I. right; right; auto.
  - destruct L as [Lx Ln]. destruct (in_split _ _ Lx) as (a & b & E).
    pose proof (W1 i) as Ri. rewrite E in Ri.
    assert (Nn : ~ In n (a ++ x :: b)) by (rewrite <- E; apply Ln).
    pose proof (insertBefore_ok _ _ _ _ _ n Ri Nn) as H.
    destruct (insertBefore (wheap w) (wlist w i) x n) as [h' d']. destruct H as [R O].
    destruct Ri as (ND & _). destruct (nodup_mid _ _ _ ND) as (xa & xb & _).
    rewrite E, insert_before_mid by auto.
    eapply world_update; eauto; rewrite ?E.
    + intros y [<-|I]; auto.
    + intros y I. apply in_app_or in I as [I|[<-|I]]; auto; left; apply in_or_app; auto.
    + intros y I NI. exfalso. apply NI. destruct I as [<-|I]; [apply in_or_app; right; left; auto|].
      apply in_app_or in I as [I|I]; apply in_or_app; [auto|right; right; auto].
    + intros y I. right; right; auto.
  - destruct (in_split _ _ L) as (a & b & E).
    pose proof (W1 i) as Ri. rewrite E in Ri.
    pose proof (remove_ok _ _ _ _ _ Ri) as H.
    destruct (remove (wheap w) (wlist w i) n) as [h' d']. destruct H as (R & N1 & N2 & O).
    destruct Ri as (ND & _). destruct (nodup_mid _ _ _ ND) as (xa & xb & _).
    rewrite E, remove_node_mid by auto.
    eapply world_update; eauto; rewrite ?E.
    + auto.
    + intros y I. left. apply in_app_or in I as [I|I]; apply in_or_app; [auto|right; right; auto].
    + intros y I NI. apply in_app_or in I as [I|[<-|I]]; auto; exfalso; apply NI; apply in_or_app; auto.
    + intros y I. right; auto.
  - destruct L as [Lx Ln]. destruct (in_split _ _ Lx) as (a & b & E).
    pose proof (W1 i) as Ri. rewrite E in Ri.
    assert (Nn : ~ In n (a ++ o :: b)) by (rewrite <- E; apply Ln).
    pose proof (replace_ok _ _ _ _ _ n Ri Nn) as H.
    destruct (replace (wheap w) (wlist w i) o n) as [h' d']. destruct H as (R & N1 & N2 & O).
    destruct Ri as (ND & _). destruct (nodup_mid _ _ _ ND) as (xa & xb & _).
    rewrite E, replace_node_mid by auto.
    eapply world_update; eauto; rewrite ?E.
    + intros y [<-|I]; auto.
    + intros y I. apply in_app_or in I as [I|[<-|I]]; auto; left; apply in_or_app; [auto|right; right; auto].
    + intros y I NI. destruct I as [<-|I]; [exfalso; apply NI; apply in_or_app; right; left; auto|].
      apply in_app_or in I as [I|[<-|I]]; auto; exfalso; apply NI; apply in_or_app; [auto|right; right; auto].
    + intros y I. right; right; auto.
  - destruct (in_split _ _ L) as (a & b & E).
    pose proof (W1 i) as Ri. rewrite E in Ri.
    pose proof (moveToHead_ok _ _ _ _ _ Ri) as H.
    destruct (moveToHead (wheap w) (wlist w i) n) as [h' d']. destruct H as (R & O).
    destruct Ri as (ND & _). destruct (nodup_mid _ _ _ ND) as (xa & xb & _).
    rewrite E, remove_node_mid by auto.
    eapply world_update; eauto; rewrite ?E.
    + auto.
    + intros y [<-|I]; left; [apply in_or_app; right; left; auto|].
      apply in_app_or in I as [I|I]; apply in_or_app; [auto|right; right; auto].
    + intros y I NI. exfalso. apply NI. apply in_app_or in I as [I|[<-|I]].
      * right. apply in_or_app; auto.
      * left; auto.
      * right. apply in_or_app; auto.
    + intros y I. right; auto.
Qed.

Lemma calls_ok cs : forall w s, wrep w s -> legal_calls s cs ->
  wrep (fold_left doCall cs w) (fold_left spec_call cs s).
Proof.
  induction cs as [|c r IH]; intros w s W L; simpl; auto.
  destruct L as [L1 L2]. apply IH; auto. now apply call_ok.
Qed.
Lemma init_wrep : wrep initWorld (fun _ => []).
Proof.
  split; [|split].
  - intros i. split; [constructor|]. simpl. auto.
  - intros i j x [].
  - intros x _. simpl. auto.
Qed.
