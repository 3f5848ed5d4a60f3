(** The building blocks of steps keep the invariant of all threads but the one that steps. *)
From Coq Require Import List NArith Bool Lia.
From Verif Require Import Bytes AddrCode_model AddrCode_spec AddrCode_proofs AddrCode_props BlockCache_model BlockCache_spec BlockCache_proofs BlockCache_proofs2.
Import ListNotations.
Local Open Scope N_scope.
Ltac Zify.zify_post_hook ::= idtac.

Lemma Inv_X c s T i : Inv c s T -> InvX c s T i.
Proof. intros (A & B). split; auto. Qed.
Lemma X_Inv c s T i t : InvX c s T i -> nth_error (thr s) i = Some t -> TInv c s T i t -> Inv c s T.
Proof. intros (A & B) H I. split; auto. intros j u Hj. destruct (Nat.eq_dec j i) as [->|]; [congruence|auto]. Qed.
Lemma TInv_frame0 c s s' T j t :
  TInv c s T j t ->
  (forall r z x, uses c s t r -> sl s r z = Some x -> eW x = true -> sl s' r z = Some x) ->
  (forall r z x, wslot c t = Some (r, z) -> sl s r z = Some x -> sl s' r z = Some x) ->
  (forall r, writes r t = true -> live s r -> live s' r) ->
  (seqn s <= seqn s') ->
  (forall r, soft c r t = true -> ph (regs s r) <> PDrop -> ph (regs s' r) = PDrop -> seqn s < seqn s') ->
  (forall r, jobReg t = Some r ->
     ph (regs s' r) = ph (regs s r) /\ blk (regs s' r) = blk (regs s r) /\ (noW s r -> noW s' r) /\
     (blk (regs s r) = true -> noR c s r -> noR c s' r) /\ (ph (regs s r) = PDet \/ ph (regs s r) = PDrop -> noH c s r -> noH c s' r) /\
     (noW s r -> (forall b, bnd c s r b -> bnd c s' r b) /\ forall x, mem s' r x = mem s r x)) ->
  TInv c s' T j t.
Proof. intros. rewrite <- (app_nil_r T). eapply TInv_frame; eauto. Qed.

(** trace only *)
Lemma X_ext c s T i e : InvX c s T i -> (forall t a, fold_left (effect c t) e a = a) ->
  (forall e1 x e2, e = e1 ++ x :: e2 -> goodEv c (T ++ e1) x) -> InvX c s (T ++ e) i.
Proof.
  intros (K & I) NE G. split.
  - destruct K as [K1 K2 K3 K4 K5 K6]. constructor; auto; [|now apply good_app].
    intro t. specialize (K2 t). rewrite holder_app, NE. exact K2.
  - intros j t J Hj. apply TInv_frame with (s := s); auto; try lia; try (intros; congruence). intros r _. sp; auto.
Qed.
(** thread i only *)
Lemma X_goto c s T i t0 t1 : InvX c s T i -> nth_error (thr s) i = Some t0 ->
  (forall r, writes r t1 = true -> writes r t0 = true \/ ph (regs s r) = POpen) ->
  (forall r, reads c r t1 = true -> reads c r t0 = true \/ blk (regs s r) = false) ->
  (forall r, hard c r t1 = true -> hard c r t0 = true \/ live s r) ->
  (forall r, jobReg t1 = Some r -> jobReg t0 = Some r) ->
  (forall p, wslot c t1 = Some p -> wslot c t0 = Some p \/ forall j t, nth_error (thr s) j = Some t -> wslot c t <> Some p) ->
  (forall r e x, wslot c t0 = Some (r, e) -> sl s r e = Some x -> eW x = false -> wslot c t1 = Some (r, e)) ->
  InvX c (goto s i t1) T i.
Proof.
  intros (K & I) H0 HW HR HH HJ HWn HWo.
  assert (N1 : nth_error (thr (goto s i t1)) i = Some t1) by (eapply updl_same; eauto).
  assert (N2 : forall j, j <> i -> nth_error (thr (goto s i t1)) j = nth_error (thr s) j) by (intros; apply updl_other; auto).
  assert (D : forall j t, nth_error (thr (goto s i t1)) j = Some t -> (j = i /\ t = t1) \/ (j <> i /\ nth_error (thr s) j = Some t)).
  { intros j t Hj. destruct (Nat.eq_dec j i) as [->|]; [left; split; congruence|right; rewrite N2 in Hj by auto; auto]. }
  split.
  - destruct K as [K1 K2 K3 K4 K5 K6]. constructor; auto.
    + intros a b ta tb r Ha Hb Ja Jb. destruct (D _ _ Ha) as [(-> & ->)|(NA & Ha')], (D _ _ Hb) as [(-> & ->)|(NB & Hb')]; auto.
      * exfalso. apply NB. eapply K3; eauto.
      * exfalso. apply NA. eapply K3; eauto.
      * eapply K3; eauto.
    + intros a b ta tb p Ha Hb Ja Jb. destruct (D _ _ Ha) as [(-> & ->)|(NA & Ha')], (D _ _ Hb) as [(-> & ->)|(NB & Hb')]; auto.
      * exfalso. destruct (HWn _ Ja) as [X|X]; [apply NB; eapply K4; eauto|eapply X; eauto].
      * exfalso. destruct (HWn _ Jb) as [X|X]; [apply NA; eapply K4; eauto|eapply X; eauto].
      * eapply K4; eauto.
    + intros r e x S W. destruct (K5 r e x S W) as (j & t & Hj & Wj). destruct (Nat.eq_dec j i) as [->|NJ].
      * exists i, t1. split; auto. eapply HWo; eauto. congruence.
      * exists j, t. rewrite N2; auto.
  - intros j t NJ Hj. rewrite N2 in Hj by auto. pose proof (I j t NJ Hj) as Tj.
    apply TInv_frame0 with (s := s); auto; [cbn; lia|cbn; intros; congruence|]. intros r Jr. cbn [regs goto idx mem].
    sp; auto.
    + intros W a ta Ha. destruct (D _ _ Ha) as [(-> & ->)|(NA & Ha')]; [|eapply W; eauto].
      destruct (writes r t1) eqn:E; auto. destruct (HW r E) as [X|X]; [rewrite (W _ _ H0) in X; discriminate|].
      exfalso. clear - Tj Jr X W. destruct t; cbn [jobReg] in Jr; try discriminate; injection Jr as ->; cbn [TInv] in Tj; unfold jobOk in Tj; intuition congruence || (destruct cl; intuition congruence).
    + intros B W a ta Ha. destruct (D _ _ Ha) as [(-> & ->)|(NA & Ha')]; [|eapply W; eauto].
      destruct (reads c r t1) eqn:E; auto. destruct (HR r E) as [X|X]; [rewrite (W _ _ H0) in X; discriminate|congruence].
    + intros B W a ta Ha. destruct (D _ _ Ha) as [(-> & ->)|(NA & Ha')]; [|eapply W; eauto].
      destruct (hard c r t1) eqn:E; auto. destruct (HH r E) as [X|X]; [rewrite (W _ _ H0) in X; discriminate|destruct X, B; congruence].
Qed.
(** a new thread *)
Lemma nth_app_new {A} (l : list A) x j y : nth_error (l ++ [x]) j = Some y -> (j = length l /\ y = x) \/ (j < length l /\ nth_error l j = Some y)%nat.
Proof.
  intro H. destruct (lt_dec j (length l)) as [L|L]; [rewrite nth_error_app1 in H by auto; auto|].
  rewrite nth_error_app2 in H by lia. destruct (j - length l)%nat eqn:E; cbn in H; [injection H as ->; left; split; [lia|auto]|destruct n; discriminate].
Qed.
Lemma X_spawn c s T t : Inv c s T ->
  (forall r, writes r t = false) -> (forall r, reads c r t = false) -> (forall r, hard c r t = false) -> wslot c t = None ->
  (forall r, jobReg t = Some r -> ph (regs s r) = PFull) ->
  InvX c (spawn s t) T (length (thr s)).
Proof.
  intros (K & I) HW HR HH HS HJ.
  assert (D : forall j u, nth_error (thr (spawn s t)) j = Some u -> (j = length (thr s) /\ u = t) \/ (j < length (thr s) /\ nth_error (thr s) j = Some u)%nat) by (intros j u; apply nth_app_new).
  assert (NJ : forall r j u, jobReg t = Some r -> nth_error (thr s) j = Some u -> jobReg u <> Some r).
  { intros r j u Jt Hj Ju. pose proof (I j u Hj) as Tj. specialize (HJ r Jt).
    clear - Tj Ju HJ. destruct u; cbn [jobReg] in Ju; try discriminate; injection Ju as ->; cbn [TInv] in Tj; unfold jobOk in Tj; intuition congruence || (destruct cl; intuition congruence). }
  split.
  - destruct K as [K1 K2 K3 K4 K5 K6]. constructor; auto.
    + intros a b ta tb r Ha Hb Ja Jb. destruct (D _ _ Ha) as [(-> & ->)|(NA & Ha')], (D _ _ Hb) as [(-> & ->)|(NB & Hb')]; auto.
      * exfalso. eapply NJ; eauto.
      * exfalso. eapply NJ; eauto.
      * eapply K3; eauto.
    + intros a b ta tb p Ha Hb Ja Jb. destruct (D _ _ Ha) as [(-> & ->)|(NA & Ha')], (D _ _ Hb) as [(-> & ->)|(NB & Hb')]; auto; try congruence.
      eapply K4; eauto.
    + intros r e x S W. destruct (K5 r e x S W) as (j & u & Hj & Wj). exists j, u. split; auto. cbn. rewrite nth_error_app1; auto. apply nth_error_Some. congruence.
  - intros j u Nj Hj. destruct (D _ _ Hj) as [(-> & ->)|(_ & Hj')]; [congruence|].
    apply TInv_frame0 with (s := s); auto; [cbn; lia|cbn; intros; congruence|]. intros r _. sp; auto.
    + intros W a ta Ha. destruct (D _ _ Ha) as [(-> & ->)|(NA & Ha')]; [auto|eapply W; eauto].
    + intros _ W a ta Ha. destruct (D _ _ Ha) as [(-> & ->)|(NA & Ha')]; [auto|eapply W; eauto].
    + intros _ W a ta Ha. destruct (D _ _ Ha) as [(-> & ->)|(NA & Ha')]; [auto|eapply W; eauto].
Qed.
(** an index entry, with the event that tells *)
Lemma X_idx c s T i t0 t x e : okCfg c -> InvX c s T i -> nth_error (thr s) i = Some t0 ->
  match x with
  | None => holder c t (T ++ e) = None
  | Some (a, h) => exists r z sz k v la, holder c t (T ++ e) = Some (k, v, la) /\ r < nregs c /\ a = enc c r z /\
      sl s r z = Some (mkE sz k v la true) /\ sz <= decodeSizeHint h /\ tk c k = t /\ live s r /\ writes r t0 = true
  end ->
  (forall t', t' <> t -> holder c t' (T ++ e) = holder c t' T) ->
  (forall e1 y e2, e = e1 ++ y :: e2 -> goodEv c (T ++ e1) y) ->
  InvX c (setIdx s t x) (T ++ e) i.
Proof.
  intros O (K & I) H0 HX HO G. split.
  - destruct K as [K1 K2 K3 K4 K5 K6]. constructor; auto; [|now apply good_app].
    intro t'. cbn [idx setIdx]. destruct (N.eq_dec t' t) as [->|NE].
    + rewrite fupd_same. destruct x as [(a & h)|]; [|now rewrite HX].
      destruct HX as (r & z & sz & k & v & la & Q & HX). rewrite Q. exists r, z, sz. tauto.
    + rewrite fupd_other by auto. rewrite HO by auto. apply K2.
  - intros j u Nj Hj. cbn [thr setIdx] in Hj. apply TInv_frame with (s := s); auto; [cbn; lia|cbn; intros; congruence|]. intros r Jr. sp; auto.
    intros W. split; [|reflexivity]. intros b B t' a h z E D. cbn [idx setIdx] in E. destruct (N.eq_dec t' t) as [->|NE].
    + rewrite fupd_same in E. subst x. destruct HX as (r' & z' & sz & k & v & la & Q & R & EA & S & _ & _ & _ & Wt).
      destruct (K.(C_reg _ _ _) r') as (TL & CU & _). pose proof (slot_facts c O _ _ _ _ TL S) as (_ & F1 & F2 & F3 & F4).
      rewrite EA, dec_enc in D by (auto; lia). injection D as -> ->. rewrite (W _ _ H0) in Wt. discriminate.
    + rewrite fupd_other in E by auto. eapply B; eauto.
Qed.
Lemma region_small c : okCfg c -> regionSize c <= 2 ^ 30 /\ 0 < regionSize c.
Proof. intros (V & _). destruct (valid_inv _ _ _ V) as (_ & A & _ & B & _). auto. Qed.
Lemma regOk_same c s s' r : regs s' r = regs s r -> mem s' r = mem s r -> regOk c s r -> regOk c s' r.
Proof. intros E M (A & B & C & D & F). unfold regOk, sl. rewrite E, M. sp; auto. Qed.

(** space for thread i *)
Lemma X_alloc c s T i t r sz k v la s1 : okCfg c -> InvX c s T i -> nth_error (thr s) i = Some t ->
  alloc c s r sz k v la = Some s1 -> okEnt c (mkE sz k v la false) -> wslot c t = Some (r, cur (regs s r) + sz) ->
  InvX c s1 T i /\ ph (regs s r) = POpen /\ r < nregs c /\ sl s1 r (cur (regs s r) + sz) = Some (mkE sz k v la false) /\ live s1 r /\ sl s r (cur (regs s r) + sz) = None /\
  (forall r', r' <> r -> regs s1 r' = regs s r').
Proof.
  intros O (K & I) Ht AL OE WS. unfold alloc in AL. destruct (ph (regs s r)) eqn:P; try discriminate.
  destruct ((r <? nregs c) && ((cur (regs s r) + sz) mod U32 <=? regionSize c)) eqn:G; [|discriminate]. injection AL as <-.
  apply andb_true_iff in G. destruct G as (G1 & G2). apply N.ltb_lt in G1. apply N.leb_le in G2.
  pose proof (K.(C_reg _ _ _) r) as (TL & CU & RN & HO & BL). destruct (region_small c O) as (RS & _).
  destruct (size_facts c _ O OE) as (DV & LS & PS & _). cbn [eSz eK eV] in *.
  assert (MX : sz <= kMaxItemSize) by apply OE. change kMaxItemSize with 33553920 in MX. change (2 ^ 30) with 1073741824 in RS.
  assert (SM : (cur (regs s r) + sz) mod U32 = cur (regs s r) + sz) by (apply N.mod_small; change U32 with 4294967296; lia).
  set (s1 := setReg s r _).
  assert (R1 : regs s1 r = {| cur := cur (regs s r) + sz; ph := POpen; blk := blk (regs s r); ents := mkE sz k v la false :: ents (regs s r) |}).
  { unfold s1. cbn [regs setReg]. rewrite fupd_same, SM. reflexivity. }
  assert (R2 : forall r', r' <> r -> regs s1 r' = regs s r') by (intros; unfold s1; cbn [regs setReg]; now rewrite fupd_other).
  assert (NO : sl s r (cur (regs s r) + sz) = None).
  { destruct (sl s r (cur (regs s r) + sz)) as [y|] eqn:E; auto. destruct (slot_facts c O _ _ _ _ TL E) as (_ & _ & X & _). lia. }
  assert (SN : forall z, sl s1 r z = if cur (regs s r) + sz =? z then Some (mkE sz k v la false) else sl s r z).
  { intro z. unfold sl. rewrite R1. cbn [cur ents]. exact (slot_cons (mkE sz k v la false) (cur (regs s r)) (ents (regs s r)) z). }
  assert (SO : forall r' z x, sl s r' z = Some x -> sl s1 r' z = Some x).
  { intros r' z x S. destruct (N.eq_dec r' r) as [->|NE]; [|unfold sl; rewrite R2 by auto; exact S].
    rewrite SN. destruct (N.eqb_spec (cur (regs s r) + sz) z) as [<-|]; [congruence|exact S]. }
  assert (SI : forall r' z x, sl s1 r' z = Some x -> (r' = r /\ z = cur (regs s r) + sz) \/ sl s r' z = Some x).
  { intros r' z x S. destruct (N.eq_dec r' r) as [->|NE]; [|right; unfold sl in *; rewrite R2 in S by auto; exact S].
    rewrite SN in S. destruct (N.eqb_spec (cur (regs s r) + sz) z) as [<-|]; auto. }
  assert (PE : forall r', ph (regs s1 r') = ph (regs s r')).
  { intro r'. destruct (N.eq_dec r' r) as [->|NE]; [rewrite R1; auto|now rewrite R2]. }
  assert (BE : forall r', blk (regs s1 r') = blk (regs s r')).
  { intro r'. destruct (N.eq_dec r' r) as [->|NE]; [rewrite R1; auto|now rewrite R2]. }
  sp; auto.
  - split.
    + destruct K as [K1 K2 K3 K4 K5 K6]. constructor; auto.
      * intro r'. destruct (N.eq_dec r' r) as [->|NE]; [|apply regOk_same with (s := s); auto].
        unfold regOk. rewrite R1. cbn [cur ents ph blk]. sp.
        -- cbn [tiles eSz]. replace (cur (regs s r) + sz - sz) with (cur (regs s r)) by lia. sp; auto. lia.
        -- lia.
        -- intro. specialize (RN H). lia.
        -- intros e x S W. destruct (SI _ _ _ S) as [(_ & ->)|S']; [|apply HO; auto].
           rewrite SN, N.eqb_refl in S. injection S as <-. discriminate.
        -- rewrite P in BL. exact BL.
      * intro t'. specialize (K2 t'). cbn [idx s1 setReg]. destruct (idx s t') as [(a & h)|], (holder c t' T) as [((k' & v') & la')|]; auto.
        destruct K2 as (r' & e & sz' & Q). exists r', e, sz'. destruct Q as (Q1 & Q2 & Q3 & Q4 & Q5 & Q6). sp; auto. unfold live. now rewrite PE.
      * intros r' e x S W. destruct (SI _ _ _ S) as [(-> & ->)|S']; [exists i, t; auto|]. eapply K5; eauto.
    + intros j u Nj Hj. apply TInv_frame0 with (s := s); auto; [|cbn; lia|intros r' _ A B; rewrite PE in B; congruence|].
      * intros r' _ L. unfold live. now rewrite PE.
      * intros r' _. rewrite PE, BE. sp; auto.
  - rewrite SN, N.eqb_refl. reflexivity.
  - unfold live. rewrite PE, P. split; discriminate.
Qed.
(** thread i fills its slot *)
Lemma X_fill c s T i t r off sz k v la : okCfg c -> InvX c s T i -> nth_error (thr s) i = Some t ->
  wslot c t = Some (r, off + sz) -> writes r t = true -> sl s r (off + sz) = Some (mkE sz k v la false) ->
  let s1 := fill c s r off sz k v la in
  InvX c s1 T i /\ sl s1 r (off + sz) = Some (mkE sz k v la true) /\
  (forall r', ph (regs s1 r') = ph (regs s r')) /\ (forall r', blk (regs s1 r') = blk (regs s r')) /\
  (forall r' z x, sl s r' z = Some x -> (r', z) <> (r, off + sz) -> sl s1 r' z = Some x).
Proof.
  intros O (K & I) Ht WS WR S s1.
  pose proof (K.(C_reg _ _ _) r) as (TL & CU & RN & HO & BL).
  destruct (slot_facts c O _ _ _ _ TL S) as (OE & E1 & E2 & E3 & E4). cbn [eSz] in *.
  destruct (size_facts c _ O OE) as (DV & LS & PS & _). cbn [eSz eK eV] in *.
  assert (R1 : regs s1 r = {| cur := cur (regs s r); ph := ph (regs s r); blk := blk (regs s r); ents := markW (cur (regs s r)) (off + sz) (ents (regs s r)) |}).
  { unfold s1, fill. cbn [regs setReg]. rewrite fupd_same. reflexivity. }
  assert (R2 : forall r', r' <> r -> regs s1 r' = regs s r') by (intros; unfold s1, fill; cbn [regs setReg]; now rewrite fupd_other).
  assert (SN : forall z, sl s1 r z = if off + sz =? z then Some (mkE sz k v la true) else sl s r z).
  { intro z. unfold sl. rewrite R1. cbn [cur ents]. rewrite (slot_markW c O) by auto. unfold sl in S. rewrite S. reflexivity. }
  assert (SO : forall r' z x, sl s r' z = Some x -> (r', z) <> (r, off + sz) -> sl s1 r' z = Some x).
  { intros r' z x Sx Nq. destruct (N.eq_dec r' r) as [->|NE]; [|unfold sl; rewrite R2 by auto; exact Sx].
    rewrite SN. destruct (N.eqb_spec (off + sz) z) as [<-|]; [congruence|exact Sx]. }
  assert (SOW : forall r' z x, sl s r' z = Some x -> eW x = true -> sl s1 r' z = Some x).
  { intros r' z x Sx W. apply SO; auto. intros [= -> ->]. rewrite S in Sx. injection Sx as <-. discriminate. }
  assert (PE : forall r', ph (regs s1 r') = ph (regs s r')).
  { intro r'. destruct (N.eq_dec r' r) as [->|NE]; [rewrite R1; auto|now rewrite R2]. }
  assert (BE : forall r', blk (regs s1 r') = blk (regs s r')).
  { intro r'. destruct (N.eq_dec r' r) as [->|NE]; [rewrite R1; auto|now rewrite R2]. }
  assert (ME : forall r', r' <> r -> mem s1 r' = mem s r').
  { intros. unfold s1, fill. cbn [mem setReg setMem]. now rewrite fupd_other. }
  assert (MR : mem s1 r = writeEntry c (mem s r) off sz k v la).
  { unfold s1, fill. cbn [mem setReg setMem]. now rewrite fupd_same. }
  sp; auto.
  2:{ now rewrite SN, N.eqb_refl. }
  split.
  - destruct K as [K1 K2 K3 K4 K5 K6]. constructor; auto.
    + intro r'. destruct (N.eq_dec r' r) as [->|NE]; [|apply regOk_same with (s := s); auto].
      unfold regOk. rewrite R1, MR. cbn [cur ents ph blk]. sp; auto; [now apply tiles_markW|].
      intros e x Sx W. rewrite SN in Sx. destruct (N.eqb_spec (off + sz) e) as [<-|NE].
      * injection Sx as <-. pose proof (write_holds c (mem s r) off k v la (mkE sz k v la true) O) as WH. cbn [eSz eK eV eLa] in WH. apply WH; auto.
      * pose proof (HO e x Sx W) as HX. destruct (slot_facts c O _ _ _ _ TL Sx) as (OX & X1 & _).
        destruct (size_facts c _ O OX) as (_ & LX & _).
        eapply holds_ext; [exact LX|exact X1| |exact HX]. intros y Y1 Y2. symmetry. apply write_frame; [exact LS|].
        destruct (N.lt_ge_cases e (off + sz)) as [L|L].
        -- pose proof (slot_disj c O _ _ _ _ _ _ TL Sx S L) as DJ. cbn [eSz] in DJ. lia.
        -- pose proof (slot_disj c O _ _ _ _ _ _ TL S Sx ltac:(lia)) as DJ. lia.
    + intro t'. specialize (K2 t'). cbn [idx s1 fill setReg setMem]. destruct (idx s t') as [(a & h)|], (holder c t' T) as [((k' & v') & la')|]; auto.
      destruct K2 as (r' & e & sz' & Q). exists r', e, sz'. destruct Q as (Q1 & Q2 & Q3 & Q4 & Q5 & Q6). sp; auto. unfold live. now rewrite PE.
    + intros r' e x Sx W. destruct (N.eq_dec r' r) as [->|NE].
      * rewrite SN in Sx. destruct (N.eqb_spec (off + sz) e) as [<-|NE]; [injection Sx as <-; discriminate|]. eapply K5; eauto.
      * unfold sl in Sx. rewrite R2 in Sx by auto. eapply K5; eauto.
  - intros j u Nj Hj. apply TInv_frame0 with (s := s); auto; [| |cbn; lia|intros r' _ A B; rewrite PE in B; congruence|].
    + intros r' z x Wu Sx. apply SO; auto. intros [= -> ->]. apply Nj. eapply K.(C_slot _ _ _); eauto.
    + intros r' _ L. unfold live. now rewrite PE.
    + intros r' J. rewrite PE, BE. sp; auto. intros NW. split; auto. intro x. destruct (N.eq_dec r' r) as [->|NE]; [|now rewrite ME].
      rewrite (NW _ _ Ht) in WR. discriminate.
Qed.
(** phase, access bit and sequence number of the region of thread i's job *)
Lemma X_phase c s T i r p b q : okCfg c -> InvX c s T i ->
  let s1 := {| regs := fupd (regs s) r {| cur := cur (regs s r); ph := p; blk := b; ents := ents (regs s r) |}; mem := mem s; idx := idx s; seqn := q; thr := thr s |} in
  (forall j t, j <> i -> nth_error (thr s) j = Some t -> jobReg t <> Some r) ->
  (p = PDet \/ p = PDrop -> noW s r /\ bnd c s r 0) -> seqn s <= q -> (p = PDrop -> ph (regs s r) = PDrop \/ seqn s < q) ->
  (b = true -> p = PRecl \/ p = PDet \/ p = PDrop) ->
  InvX c s1 T i.
Proof.
  intros O (K & I) s1 HJ HP HQ HD HB.
  assert (R1 : regs s1 r = {| cur := cur (regs s r); ph := p; blk := b; ents := ents (regs s r) |}) by (unfold s1; cbn [regs]; apply fupd_same).
  assert (R2 : forall r', r' <> r -> regs s1 r' = regs s r') by (intros; unfold s1; cbn [regs]; now rewrite fupd_other).
  assert (SE : forall r' z, sl s1 r' z = sl s r' z).
  { intros. unfold sl. destruct (N.eq_dec r' r) as [->|NE]; [now rewrite R1|now rewrite R2]. }
  split.
  - destruct K as [K1 K2 K3 K4 K5 K6]. constructor; auto.
    + intro r'. destruct (N.eq_dec r' r) as [->|NE]; [|apply regOk_same with (s := s); auto].
      pose proof (K1 r) as (A & B & C & D & E). unfold regOk. rewrite R1. cbn [cur ents ph blk]. sp; auto. intros e x. rewrite SE. apply D.
    + intro t'. specialize (K2 t'). cbn [idx s1]. destruct (idx s t') as [(a & h)|] eqn:IX, (holder c t' T) as [((k' & v') & la')|]; auto.
      destruct K2 as (r' & e & sz' & Q1 & Q2 & Q3 & Q4 & Q5 & Q6). exists r', e, sz'. rewrite SE. sp; auto.
      destruct (N.eq_dec r' r) as [->|NE]; [|unfold live; now rewrite R2].
      unfold live. rewrite R1. cbn [ph]. destruct (K1 r) as (TL & CU & _). destruct (slot_facts c O _ _ _ _ TL Q3) as (_ & F1 & F2 & F3 & F4).
      assert (ND : ~ (p = PDet \/ p = PDrop)).
      { intro X. destruct (HP X) as (_ & B0). specialize (B0 t' a h e IX). rewrite Q2, dec_enc in B0 by (auto; lia). specialize (B0 eq_refl). lia. }
      split; intro; apply ND; auto.
    + intros r' e x. rewrite SE. apply K5.
  - intros j u Nj Hj. apply TInv_frame0 with (s := s); auto.
    + intros. now rewrite SE.
    + intros. now rewrite SE.
    + intros r' W L. destruct (N.eq_dec r' r) as [->|NE]; [|unfold live; now rewrite R2].
      unfold live. rewrite R1. cbn [ph]. assert (ND : ~ (p = PDet \/ p = PDrop)); [|split; intro; apply ND; auto].
      intro X. destruct (HP X) as (NW & _). rewrite (NW _ _ Hj) in W. discriminate.
    + intros r' _ P1 P2. destruct (N.eq_dec r' r) as [->|NE]; [|rewrite R2 in P2 by auto; congruence].
      rewrite R1 in P2. cbn [ph] in P2. destruct (HD P2); [congruence|auto].
    + intros r' J. assert (r' <> r) by (intros ->; eapply HJ; eauto). rewrite R2 by auto. sp; auto.
Qed.
(** the region is emptied by thread i's job *)
Lemma X_reset c s T i r : okCfg c -> InvX c s T i ->
  (forall j t, j <> i -> nth_error (thr s) j = Some t -> jobReg t <> Some r) ->
  ph (regs s r) = PDrop -> noW s r -> noH c s r -> bnd c s r 0 ->
  InvX c (setReg s r {| cur := 0; ph := PFull; blk := false; ents := [] |}) T i.
Proof.
  intros O (K & I) HJ HP NW NH B0. set (s1 := setReg _ _ _).
  assert (R1 : regs s1 r = {| cur := 0; ph := PFull; blk := false; ents := [] |}) by (unfold s1; cbn [regs setReg]; apply fupd_same).
  assert (R2 : forall r', r' <> r -> regs s1 r' = regs s r') by (intros; unfold s1; cbn [regs setReg]; now rewrite fupd_other).
  assert (SE : forall r' z, r' <> r -> sl s1 r' z = sl s r' z) by (intros; unfold sl; now rewrite R2).
  assert (SR : forall z, sl s1 r z = None) by (intros; unfold sl; now rewrite R1).
  split.
  - destruct K as [K1 K2 K3 K4 K5 K6]. constructor; auto.
    + intro r'. destruct (N.eq_dec r' r) as [->|NE]; [|apply regOk_same with (s := s); auto].
      unfold regOk. rewrite R1. cbn [cur ents ph blk tiles]. sp; auto; try lia; try discriminate. intros e x. rewrite SR. discriminate.
    + intro t'. specialize (K2 t'). cbn [idx s1 setReg]. destruct (idx s t') as [(a & h)|] eqn:IX, (holder c t' T) as [((k' & v') & la')|]; auto.
      destruct K2 as (r' & e & sz' & Q1 & Q2 & Q3 & Q4 & Q5 & Q6).
      assert (NE : r' <> r) by (intros ->; apply Q6; auto). exists r', e, sz'. rewrite SE by auto. sp; auto. unfold live. now rewrite R2.
    + intros r' e x S W. destruct (N.eq_dec r' r) as [->|NE]; [rewrite SR in S; discriminate|]. rewrite SE in S by auto. eapply K5; eauto.
  - intros j u Nj Hj. apply TInv_frame0 with (s := s); auto.
    + intros r' z x U S W. destruct (N.eq_dec r' r) as [->|NE]; [exfalso|now rewrite SE].
      destruct U as [U|[U|[U|(U & U2)]]]; [rewrite (NW _ _ Hj) in U; discriminate|rewrite (NH _ _ Hj) in U; discriminate|eapply HJ; eauto|congruence].
    + intros r' z x U S. destruct (N.eq_dec r' r) as [->|NE]; [exfalso|now rewrite SE].
      assert (W : writes r u = true); [|rewrite (NW _ _ Hj) in W; discriminate].
      destruct u; cbn [wslot] in U; try discriminate.
      * injection U as -> _. cbn. apply N.eqb_refl.
      * destruct (parseAt c buf off); [|discriminate]. injection U as -> _. cbn. apply N.eqb_refl.
    + intros r' W L. destruct (N.eq_dec r' r) as [->|NE]; [rewrite (NW _ _ Hj) in W; discriminate|]. unfold live. now rewrite R2.
    + cbn. lia.
    + intros r' _ P1 P2. destruct (N.eq_dec r' r) as [->|NE]; [rewrite R1 in P2; discriminate|rewrite R2 in P2 by auto; congruence].
    + intros r' J. assert (r' <> r) by (intros ->; eapply HJ; eauto). rewrite R2 by auto. sp; auto.
Qed.
