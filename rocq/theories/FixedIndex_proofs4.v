(** Proofs about the fixed-size flash index: a call touches only the shard it locks. *)
From Verif Require Import Bytes SparseIndex_model SparseIndex_spec SparseIndex_proofs
  FixedIndex_model FixedIndex_spec FixedIndex_proofs FixedIndex_proofs2 FixedIndex_proofs3.
Open Scope N_scope.
Set Implicit Arguments. Unset Strict Implicit.
Ltac Zify.zify_post_hook ::= idtac.

Definition op_key (o : iop) : option N :=
  match o with
  | OLookup h | OPeek h | OInsert h _ _ | OInsertNew h _ _ | OReplace h _ _ | ORemove h | ORemoveIf h _ => Some h
  | _ => None
  end.

Section L.
Variable c : fcfg.
Hypothesis OK : cfg_ok c.
Local Notation T := (fTotal c).
Local Notation W := (fcShard c).
Variable sh : N.

Definition agree (s s' : fidx) : Prop :=
  (forall j, j / W = sh -> fSlot s j = fSlot s' j) /\ fCnt s sh = fCnt s' sh.
Definition frame (s s1 : fidx) : Prop :=
  (forall j, j / W <> sh -> fSlot s1 j = fSlot s j) /\ (forall i, i <> sh -> fCnt s1 i = fCnt s i).

Lemma agree_put : forall s s' j x, agree s s' -> agree (put s j x) (put s' j x).
Proof. intros s s' j x [A B]. split; auto. intros i I. simpl. destruct (i =? j); auto. Qed.
Lemma agree_cnt : forall s s' v, agree s s' -> agree (cnt s sh v) (cnt s' sh v).
Proof. intros s s' v [A B]. split; auto. simpl. rewrite N.eqb_refl. auto. Qed.
Lemma frame_refl : forall s, frame s s. Proof. split; auto. Qed.
Lemma frame_put : forall s s1 j x, frame s s1 -> j / W = sh -> frame s (put s1 j x).
Proof.
  intros s s1 j x [A B] J. split; auto. intros i I. simpl. destruct (N.eqb_spec i j) as [->|]; [congruence|auto].
Qed.
Lemma frame_cnt : forall s s1 v, frame s s1 -> frame s (cnt s1 sh v).
Proof.
  intros s s1 v [A B]. split; auto. intros i I. simpl. destruct (N.eqb_spec i sh); [congruence|auto].
Qed.

Lemma acc_agree : forall s s' j, agree s s' -> j / W = sh -> acc c s j = acc c s' j.
Proof. intros s s' j [A _] J. unfold acc. rewrite (A j J). auto. Qed.
Lemma find_match_agree : forall s s' b p os, agree s s' -> b < T -> b / W = sh ->
  find_match c s b p os = find_match c s' b p os.
Proof.
  intros s s' b p os A B SB. induction os as [|o os IH]; auto. cbn [find_match].
  rewrite (acc_agree (s := s) (s' := s')), IH; auto. rewrite <- SB. apply calc_shard; auto.
Qed.
Lemma find_sub_agree : forall s s' b cur us, agree s s' -> b < T -> b / W = sh ->
  find_sub c s b cur us = find_sub c s' b cur us.
Proof.
  intros s s' b cur us A B SB. induction us as [|u us IH]; auto. cbn [find_sub].
  rewrite (acc_agree (s := s) (s' := s')), IH; auto. rewrite <- SB. apply calc_shard; auto.
Qed.
Lemma find_empty_local : forall s s' b os, agree s s' -> b < T -> b / W = sh ->
  match find_empty c s b os, find_empty c s' b os with
  | Some (s1, x), Some (s1', x') => x = x' /\ agree s1 s1' /\ frame s s1 /\ frame s' s1'
  | None, None => True
  | _, _ => False
  end.
Proof.
  intros s s' b os A B SB. induction os as [|o os IH]; cbn [find_empty].
  - split; [|split; [|split]]; auto using frame_refl.
  - assert (SJ : calcSlot c b o / W = sh) by (rewrite <- SB; apply calc_shard; auto).
    assert (J : calcSlot c b o < T) by (apply calc_lt; auto).
    rewrite <- (acc_agree A SJ). rewrite acc_ok by auto.
    destruct (slValid (fSlot s (calcSlot c b o))); cbn [negb];
      [|split; [|split; [|split]]; auto using frame_refl].
    destruct (slComb (fSlot s (calcSlot c b o))); [exact IH|].
    destruct (slOff (fSlot s (calcSlot c b o)) =? o); [exact IH|].
    set (x := fSlot s (calcSlot c b o)). set (org := origBid c (calcSlot c b o) (slOff x)).
    assert (OT : org < T) by (apply orig_lt; auto).
    assert (OS : org / W = sh) by (rewrite <- SJ; apply orig_shard; auto).
    rewrite <- (find_sub_agree (slOff x) [0; 1; 2; 3] A OT OS).
    destruct (find_sub c s org (slOff x) [0; 1; 2; 3]) as [[u|]|]; [|exact IH|auto].
    assert (KS : calcSlot c org u / W = sh) by (rewrite <- OS; apply calc_shard; auto).
    split; auto. split; [apply agree_put, agree_put; auto|].
    split; repeat (apply frame_put; auto); apply frame_refl.
Qed.
Lemma decide_local : forall s s' b p, agree s s' -> b < T -> b / W = sh ->
  match decideOff c s b p, decideOff c s' b p with
  | Some (s1, x), Some (s1', x') => x = x' /\ agree s1 s1' /\ frame s s1 /\ frame s' s1'
  | None, None => True
  | _, _ => False
  end.
Proof.
  intros s s' b p A B SB. unfold decideOff, checkOff.
  rewrite <- (find_match_agree p [0; 1; 2; 3] A B SB).
  destruct (find_match c s b p [0; 1; 2; 3]) as [[o|]|]; auto.
  - split; [|split; [|split]]; auto using frame_refl.
  - pose proof (find_empty_local [0; 1; 2; 3] A B SB) as H.
    destruct (find_empty c s b [0; 1; 2; 3]) as [[s1 x]|], (find_empty c s' b [0; 1; 2; 3]) as [[s1' x']|]; auto.
    + destruct H as (-> & H). destruct x'; auto.
    + destruct x; auto.
    + destruct x'; auto.
Qed.
Lemma elb_local : forall s s' b p, agree s s' -> b < T -> b / W = sh ->
  elb c s b p = elb c s' b p /\ forall j x, elb c s b p = Some (Some (j, x)) -> j / W = sh.
Proof.
  intros s s' b p A B SB. unfold elb, checkOff. destruct (sid_ok c b); [|split; auto; discriminate].
  rewrite <- (find_match_agree p [0; 1; 2; 3] A B SB).
  destruct (find_match c s b p [0; 1; 2; 3]) as [[o|]|]; [|split; auto; discriminate|split; auto; discriminate].
  assert (SJ : calcSlot c b o / W = sh) by (rewrite <- SB; apply calc_shard; auto).
  rewrite <- (acc_agree A SJ). split; auto. intros j x H.
  destruct (acc c s (calcSlot c b o)) as [y|]; [|discriminate]. destruct (slComb y); [discriminate|].
  injection H as <- _. auto.
Qed.
Lemma elb_alloc_local : forall s s' b p, agree s s' -> b < T -> b / W = sh ->
  match elb_alloc c s b p, elb_alloc c s' b p with
  | Some (s1, o, j, x), Some (s1', o', j', x') =>
      o = o' /\ j = j' /\ x = x' /\ j / W = sh /\ agree s1 s1' /\ frame s s1 /\ frame s' s1'
  | None, None => True
  | _, _ => False
  end.
Proof.
  intros s s' b p A B SB. unfold elb_alloc. destruct (sid_ok c b); auto.
  pose proof (decide_local p A B SB) as H.
  destruct (decideOff c s b p) as [[s1 o]|], (decideOff c s' b p) as [[s1' o']|]; auto;
    [|destruct (acc c s1 (calcSlot c b o)) as [y|]; auto; destruct (slComb y); auto
     |contradiction].
  destruct H as (-> & H1 & H2 & H3).
  assert (SJ : calcSlot c b o' / W = sh) by (rewrite <- SB; apply calc_shard; auto).
  rewrite <- (acc_agree H1 SJ).
  destruct (acc c s1 (calcSlot c b o')) as [y|]; auto. destruct (slComb y); auto.
  repeat (split; auto).
Qed.

Opaque sizeHintToExp sizeExpToHint bucketId partialKeyBits show.
(** a call, seen from its shard *)
Lemma step_local : forall o h s s', op_key o = Some h -> bucketId c h / W = sh -> agree s s' ->
  match f_step c s o, f_step c s' o with
  | Some (s1, r), Some (s1', r') => r = r' /\ agree s1 s1' /\ frame s s1 /\ frame s' s1'
  | None, None => True
  | _, _ => False
  end.
Proof.
  intros o h s s' K SB A.
  assert (B : bucketId c h < T) by (apply bucketId_lt; auto).
  assert (Z : forall r : ires, r = r /\ agree s s' /\ frame s s /\ frame s' s').
  { intros; split; [|split; [|split]]; auto using frame_refl. }
  pose proof (proj2 A) as AC.
  destruct o; try discriminate; injection K as ->; cbn [f_step];
    destruct (elb_local (partialKeyBits h) A B SB) as [E J];
    unfold f_lookup, f_peek, f_insert, f_insertNew, f_replace, f_remove, f_removeIf, shardId;
    rewrite <- ?E, ?SB, ?AC;
    try (destruct (elb c s (bucketId c h) (partialKeyBits h)) as [[[j x]|]|]; auto;
         specialize (J j x eq_refl)).
  - destruct (slValid x); auto. destruct (show x (slHits (bump x))); simpl; auto.
    split; auto. split; [apply agree_put; auto|]. split; apply frame_put; auto using frame_refl.
  - destruct (slValid x); auto. destruct (show x (slHits x)); simpl; auto.
  - pose proof (elb_alloc_local (partialKeyBits h) A B SB) as L.
    destruct (elb_alloc c s (bucketId c h) (partialKeyBits h)) as [[[[s1 oo] j] x]|],
             (elb_alloc c s' (bucketId c h) (partialKeyBits h)) as [[[[s1' oo'] j'] x']|]; try contradiction; auto.
    destruct L as (-> & -> & -> & JS & A1 & F1 & F1').
    destruct (sizeHintToExp z) as [e|]; auto. rewrite (proj2 A1).
    destruct (slValid x').
    + destruct (show x' (slHits x')); simpl; auto.
      split; auto. split; [apply agree_put; auto|]. split; apply frame_put; auto.
    + split; auto. split; [apply agree_put, agree_cnt; auto|].
      split; (apply frame_put; [apply frame_cnt; auto|auto]).
  - pose proof (elb_alloc_local (partialKeyBits h) A B SB) as L.
    destruct (elb_alloc c s (bucketId c h) (partialKeyBits h)) as [[[[s1 oo] j] x]|],
             (elb_alloc c s' (bucketId c h) (partialKeyBits h)) as [[[[s1' oo'] j'] x']|]; try contradiction; auto.
    destruct L as (-> & -> & -> & JS & A1 & F1 & F1').
    destruct (slValid x').
    + destruct (show x' (slHits x')); simpl; auto.
    + destruct (sizeHintToExp z) as [e|]; auto. rewrite (proj2 A1).
      split; auto. split; [apply agree_put, agree_cnt; auto|].
      split; (apply frame_put; [apply frame_cnt; auto|auto]).
  - destruct (slValid x && (slAddr x =? old)); auto.
    split; auto. split; [apply agree_put; auto|]. split; apply frame_put; auto using frame_refl.
  - destruct (slValid x); [destruct (show x (slHits x)); simpl; auto|].
    + split; auto. split; [apply agree_put, agree_cnt; auto|].
      split; (apply frame_put; [apply frame_cnt, frame_refl|auto]).
    + split; auto. split; [apply agree_put; auto|]. split; apply frame_put; auto using frame_refl.
  - destruct (slValid x && (slAddr x =? a)); auto.
    split; auto. split; [apply agree_put, agree_cnt; auto|].
    split; (apply frame_put; [apply frame_cnt, frame_refl|auto]).
Qed.
End L.

Lemma commute_ok : forall c s o1 o2 h1 h2 s1 s12 r1 r2, cfg_ok c ->
  op_key o1 = Some h1 -> op_key o2 = Some h2 ->
  bucketId c h1 / fcShard c <> bucketId c h2 / fcShard c ->
  f_step c s o1 = Some (s1, r1) -> f_step c s1 o2 = Some (s12, r2) ->
  exists s2 s21, f_step c s o2 = Some (s2, r2) /\ f_step c s2 o1 = Some (s21, r1) /\
    (forall j, fSlot s12 j = fSlot s21 j) /\ (forall i, fCnt s12 i = fCnt s21 i).
Proof.
  intros c s o1 o2 h1 h2 s1 s12 r1 r2 OK K1 K2 NE E1 E2.
  set (a := bucketId c h1 / fcShard c) in *. set (b := bucketId c h2 / fcShard c) in *.
  assert (RF : forall sh s, agree c sh s s) by (split; auto).
  pose proof (@step_local c OK a o1 h1 s s K1 eq_refl (RF a s)) as L1. rewrite E1 in L1.
  destruct L1 as (_ & _ & F1 & _).
  assert (A1 : agree c b s1 s).
  { destruct F1 as [X Y]. split; [intros j J; apply X; congruence|apply Y; auto]. }
  pose proof (@step_local c OK b o2 h2 s1 s K2 eq_refl A1) as L2. rewrite E2 in L2.
  destruct (f_step c s o2) as [[s2 r2']|] eqn:E3; [|contradiction].
  destruct L2 as (<- & A2 & F2 & F2').
  assert (A3 : agree c a s s2).
  { destruct F2' as [X Y]. split; [intros j J; symmetry; apply X; congruence|symmetry; apply Y; auto]. }
  pose proof (@step_local c OK a o1 h1 s s2 K1 eq_refl A3) as L3. rewrite E1 in L3.
  destruct (f_step c s2 o1) as [[s21 r1']|] eqn:E4; [|contradiction].
  destruct L3 as (<- & A4 & _ & F4).
  exists s2, s21. split; auto. split; auto.
  destruct F1 as [F1 F1c], F2 as [F2 F2c], F2' as [F2' F2c'], F4 as [F4 F4c], A2 as [A2 A2c], A4 as [A4 A4c].
  split.
  - intros j. destruct (N.eq_dec (j / fcShard c) a) as [EA|EA].
    + rewrite F2 by congruence. apply A4; auto.
    + destruct (N.eq_dec (j / fcShard c) b) as [EB|EB].
      * rewrite (A2 j EB). rewrite F4; auto.
      * rewrite F2, F1, F4, F2' by auto. auto.
  - intros i. destruct (N.eq_dec i a) as [EA|EA].
    + rewrite F2c by congruence. subst i. auto.
    + destruct (N.eq_dec i b) as [EB|EB].
      * subst i. rewrite A2c. rewrite F4c; auto.
      * rewrite F2c, F1c, F4c, F2c' by auto. auto.
Qed.
