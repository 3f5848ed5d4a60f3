(** Slots, the invariant, and what steps keep of it. *)
From Coq Require Import List NArith Bool Lia.
From Verif Require Import Bytes AddrCode_model AddrCode_spec AddrCode_proofs AddrCode_props BlockCache_model BlockCache_spec BlockCache_proofs.
Import ListNotations.
Local Open Scope N_scope.
Ltac Zify.zify_post_hook ::= idtac.

Ltac sp := repeat match goal with |- _ /\ _ => split end.
(** ** Slots of a region: the one that ends at [e] *)
Fixpoint slotAt (cu : N) (l : list ent) (e : N) : option ent :=
  match l with [] => None | x :: r => if cu =? e then Some x else slotAt (cu - eSz x) r e end.
Fixpoint tiles (c : cfg) (cu : N) (l : list ent) : Prop :=
  match l with [] => cu = 0 | x :: r => okEnt c x /\ eSz x <= cu /\ tiles c (cu - eSz x) r end.

Lemma tiles_div c : okCfg c -> forall l cu, tiles c cu l -> (algn c | cu).
Proof.
  intros O. induction l as [|x l IH]; cbn [tiles]; intros cu H.
  - subst. apply N.divide_0_r.
  - destruct H as (K & L & H). apply IH in H. destruct (size_facts c x O K) as (D & _).
    replace cu with (cu - eSz x + eSz x) by lia. now apply N.divide_add_r.
Qed.
Lemma slot_facts c : okCfg c -> forall l cu e x, tiles c cu l -> slotAt cu l e = Some x ->
  okEnt c x /\ eSz x <= e /\ e <= cu /\ 0 < e /\ (algn c | e).
Proof.
  intros O. induction l as [|y l IH]; cbn [tiles slotAt]; intros cu e x H S; [discriminate|].
  destruct H as (K & L & H). destruct (N.eqb_spec cu e) as [->|NE].
  - injection S as ->. destruct (size_facts c x O K) as (D & _ & P & _). sp; auto; try lia.
    apply tiles_div with (l := x :: l); auto. cbn. auto.
  - destruct (IH _ _ _ H S) as (A & B & C & D & E). sp; auto. lia.
Qed.
Lemma slot_disj c : okCfg c -> forall l cu e1 e2 x1 x2, tiles c cu l -> slotAt cu l e1 = Some x1 -> slotAt cu l e2 = Some x2 ->
  e1 < e2 -> e1 <= e2 - eSz x2.
Proof.
  intros O. induction l as [|y l IH]; cbn [tiles slotAt]; intros cu e1 e2 x1 x2 H S1 S2 L; [discriminate|].
  destruct H as (K & Ly & H). destruct (N.eqb_spec cu e1) as [->|N1].
  - destruct (N.eqb_spec e1 e2) as [|N2]; [lia|]. destruct (slot_facts c O _ _ _ _ H S2) as (_ & _ & LE & _). lia.
  - destruct (N.eqb_spec cu e2) as [->|N2].
    + injection S2 as ->. destruct (slot_facts c O _ _ _ _ H S1) as (_ & _ & LE & _). exact LE.
    + eapply IH; eauto.
Qed.
Lemma slot_next c : okCfg c -> forall l cu e x, tiles c cu l -> slotAt cu l e = Some x ->
  e - eSz x = 0 \/ exists y, slotAt cu l (e - eSz x) = Some y.
Proof.
  intros O. induction l as [|y l IH]; cbn [tiles slotAt]; intros cu e x H S; [discriminate|].
  destruct H as (K & L & H). destruct (size_facts c y O K) as (_ & _ & P & _). destruct (N.eqb_spec cu e) as [->|NE].
  - injection S as ->. destruct l as [|z l].
    + left. cbn in H. exact H.
    + right. exists z. destruct (N.eqb_spec e (e - eSz x)); [lia|]. cbn [slotAt]. now rewrite N.eqb_refl.
  - destruct (slot_facts c O _ _ _ _ H S) as (_ & A & B & _ & _).
    destruct (IH _ _ _ H S) as [|(z & Z)]; [auto|right]. exists z. destruct (N.eqb_spec cu (e - eSz x)); [lia|]. exact Z.
Qed.
Lemma slot_top c : okCfg c -> forall l cu, tiles c cu l -> cu = 0 \/ exists y, slotAt cu l cu = Some y.
Proof. intros O [|x l] cu H; cbn in *; [now left|right]. exists x. now rewrite N.eqb_refl. Qed.
Lemma tiles0 c l : okCfg c -> tiles c 0 l -> l = [].
Proof. intros O. destruct l as [|x l]; auto. cbn. intros (K & L & _). destruct (size_facts c x O K) as (_ & _ & P & _). lia. Qed.
Lemma slot_cons n cu l e : slotAt (cu + eSz n) (n :: l) e = if cu + eSz n =? e then Some n else slotAt cu l e.
Proof. cbn [slotAt]. replace (cu + eSz n - eSz n) with cu by lia. reflexivity. Qed.
Definition mark (x : ent) : ent := mkE (eSz x) (eK x) (eV x) (eLa x) true.
Lemma slot_markW c : okCfg c -> forall l cu e, tiles c cu l -> forall e',
  slotAt cu (markW cu e l) e' = if e =? e' then option_map mark (slotAt cu l e) else slotAt cu l e'.
Proof.
  intros O. induction l as [|x l IH]; cbn [tiles markW slotAt]; intros cu e H e'; [now destruct (e =? e')|].
  destruct H as (K & L & H). destruct (size_facts c x O K) as (_ & _ & P & _).
  destruct (N.eqb_spec cu e) as [->|N1]; cbn [slotAt eSz].
  - destruct (N.eqb_spec e e') as [->|N2]; reflexivity.
  - destruct (N.eqb_spec cu e') as [->|N2].
    + destruct (N.eqb_spec e e'); [congruence|reflexivity].
    + apply IH. exact H.
Qed.
Lemma tiles_markW c : forall l cu e, tiles c cu l -> tiles c cu (markW cu e l).
Proof.
  induction l as [|x l IH]; cbn [tiles markW]; intros cu e H; auto. destruct H as (K & L & H).
  destruct (cu =? e); cbn [tiles eSz]; auto.
Qed.

(** ** Threads *)
Definition sl (s : state) (r e : N) : option ent := slotAt (cur (regs s r)) (ents (regs s r)) e.
Definition live (s : state) (r : N) : Prop := ph (regs s r) <> PDet /\ ph (regs s r) <> PDrop.
Definition opOf (w : caller) (k : list N) : op := match w with CGet => OLookup k | CRem => ORemove k end.
Definition jobReg (t : tst) : option N :=
  match t with
  | JWait _ r | JRead r | JWalk _ r _ _ | JDec r _ _ | JRm _ r _ _ | JWr r _ _ _ _ | JRep r _ _ _ _ | JRmC r _ _ _ | JCl r _ _ _
  | JDet r | JSeq _ r | JBlk r | JEnd _ r => Some r
  | _ => None
  end.
Definition reSize (c : cfg) (p : parsed) : N := serializedSize (algn c) (lenN (pK p)) (lenN (pV p)).
(** the slot a thread is about to fill *)
Definition wslot (c : cfg) (t : tst) : option (N * N) :=
  match t with
  | IWrite _ _ _ r off sz => Some (r, off + sz)
  | JWr _ off buf r2 off2 => match parseAt c buf off with Some p => Some (r2, off2 + reSize c p) | None => None end
  | _ => None
  end.
Definition hard (c : cfg) (r : N) (t : tst) : bool :=
  match t with LRead _ _ code _ _ => fst (dec c code) =? r | _ => false end.
Definition soft (c : cfg) (r : N) (t : tst) : bool :=
  match t with LOpen _ _ _ _ code _ | LChk _ _ _ _ code _ => fst (dec c code) =? r | _ => false end.
Definition noT (s : state) (P : tst -> bool) : Prop := forall j t, nth_error (thr s) j = Some t -> P t = false.
Definition noW (s : state) (r : N) : Prop := noT s (writes r).
Definition noR (c : cfg) (s : state) (r : N) : Prop := noT s (reads c r).
Definition noH (c : cfg) (s : state) (r : N) : Prop := noT s (hard c r).
(** index entries of region r end at or below [b] *)
Definition bnd (c : cfg) (s : state) (r b : N) : Prop := forall t a h e, idx s t = Some (a, h) -> dec c a = (r, e) -> e <= b.

Definition lin (c : cfg) (s : state) (T : list event) (i : nat) (w : caller) (k : list N) (code hint : N) : Prop :=
  exists A B k' v la sz, T = A ++ B /\ In (ECall i (opOf w k)) A /\ holder c (tk c k) A = Some (k', v, la) /\
    sl s (fst (dec c code)) (snd (dec c code)) = Some (mkE sz k' v la true) /\ sz <= decodeSizeHint hint.
Definition hd (c : cfg) (p : parsed) (x : ent) : Prop :=
  eW x = true /\ pSz p = eSz x /\ pK p = eK x /\ lenN (pV p) = lenN (eV x) /\ pCs p = if checksumData c then checksum c (eV x) else 0.
Definition jobOk (c : cfg) (s : state) (cl : bool) (r : N) : Prop :=
  ph (regs s r) = PRecl /\ r < nregs c /\ noW s r /\ (cl = false -> allowRead c = false -> blk (regs s r) = true /\ noR c s r).

Definition TInv (c : cfg) (s : state) (T : list event) (i : nat) (t : tst) : Prop :=
  match t with
  | TDone => True
  | IAlloc k v la => la < 2 ^ 32
  | IWrite k v la r off sz => r < nregs c /\ sl s r (off + sz) = Some (mkE sz k v la false) /\ live s r
  | IIdx k v la r off sz => r < nregs c /\ sl s r (off + sz) = Some (mkE sz k v la true) /\ live s r
  | IClose r => True
  | LSeq w k n => In (ECall i (opOf w k)) T
  | LIdx w k n q => In (ECall i (opOf w k)) T /\ q <= seqn s
  | LOpen w k n q code hint | LChk w k n q code hint =>
      In (ECall i (opOf w k)) T /\ q <= seqn s /\ (q < seqn s \/ (lin c s T i w k code hint /\ ph (regs s (fst (dec c code))) <> PDrop))
  | LRead w k code hint _ => lin c s T i w k code hint
  | LRm w k code x =>
      In (ECall i (opOf w k)) T /\
      match x with RDev | RChk => True | RMiss => during i (opOf w k) T (fun A => stored c k A = None) | _ => False end
  | RRem k ov => In (ECall i (ORemove k)) T /\
      match ov with None => True | Some v => during i (ORemove k) T (fun A => exists la, stored c k A = Some (v, la)) end
  | JWait cl r => ph (regs s r) = PRecl /\ r < nregs c /\ (cl = false -> allowRead c = false -> blk (regs s r) = true)
  | JRead r => jobOk c s false r
  | JWalk cl r off buf => jobOk c s cl r /\ (cl = true -> forall x, buf x = mem s r x) /\ bnd c s r off /\ (off = 0 \/ exists x, sl s r off = Some x /\ eW x = true)
  | JDec r off buf | JRm _ r off buf => jobOk c s false r /\ bnd c s r off /\ exists x p, sl s r off = Some x /\ parseAt c buf off = Some p /\ hd c p x
  | JWr r off buf r2 off2 =>
      jobOk c s false r /\ bnd c s r off /\ r2 <> r /\ r2 < nregs c /\ live s r2 /\
      exists x p, sl s r off = Some x /\ parseAt c buf off = Some p /\ hd c p x /\ pV p = eV x /\
                  sl s r2 (off2 + reSize c p) = Some (mkE (reSize c p) (pK p) (pV p) 0 false)
  | JRep r off buf r2 off2 =>
      jobOk c s false r /\ bnd c s r off /\ r2 <> r /\ r2 < nregs c /\ live s r2 /\
      exists x p, sl s r off = Some x /\ parseAt c buf off = Some p /\ hd c p x /\ pV p = eV x /\
                  sl s r2 (off2 + reSize c p) = Some (mkE (reSize c p) (pK p) (pV p) 0 true)
  | JRmC r off buf r2 => jobOk c s false r /\ bnd c s r off /\ r2 <> r /\ exists x p, sl s r off = Some x /\ parseAt c buf off = Some p /\ hd c p x
  | JCl r off buf r2 =>
      jobOk c s false r /\ r2 <> r /\ exists x p, sl s r off = Some x /\ parseAt c buf off = Some p /\ hd c p x /\ bnd c s r (off - eSz x)
  | JDet r => jobOk c s true r /\ bnd c s r 0
  | JSeq cl r => ph (regs s r) = (if cl then PDet else PRecl) /\ noW s r /\ bnd c s r 0 /\ (cl = true -> noH c s r) /\
                 (cl = false -> allowRead c = false -> blk (regs s r) = true /\ noR c s r)
  | JBlk r => ph (regs s r) = PDrop /\ noW s r /\ bnd c s r 0 /\ allowRead c = true
  | JEnd cl r => ph (regs s r) = PDrop /\ noW s r /\ bnd c s r 0 /\ (cl = true -> noH c s r) /\
                 (cl = false -> blk (regs s r) = true /\ (allowRead c = false -> noR c s r))
  end.

Definition regOk (c : cfg) (s : state) (r : N) : Prop :=
  tiles c (cur (regs s r)) (ents (regs s r)) /\ cur (regs s r) <= regionSize c /\
  (nregs c <= r -> cur (regs s r) = 0) /\
  (forall e x, sl s r e = Some x -> eW x = true -> holds c (mem s r) e x) /\
  (blk (regs s r) = true -> ph (regs s r) = PRecl \/ ph (regs s r) = PDet \/ ph (regs s r) = PDrop).
Definition idxOk (c : cfg) (s : state) (T : list event) : Prop := forall t,
  match idx s t, holder c t T with
  | None, None => True
  | Some (a, h), Some (k, v, la) =>
      exists r e sz, r < nregs c /\ a = enc c r e /\ sl s r e = Some (mkE sz k v la true) /\ sz <= decodeSizeHint h /\ tk c k = t /\ live s r
  | _, _ => False
  end.
Definition uniqJob (s : state) : Prop := forall i j ti tj r, nth_error (thr s) i = Some ti -> nth_error (thr s) j = Some tj ->
  jobReg ti = Some r -> jobReg tj = Some r -> i = j.
Definition uniqSlot (c : cfg) (s : state) : Prop := forall i j ti tj p, nth_error (thr s) i = Some ti -> nth_error (thr s) j = Some tj ->
  wslot c ti = Some p -> wslot c tj = Some p -> i = j.
Definition owned (c : cfg) (s : state) : Prop := forall r e x, sl s r e = Some x -> eW x = false ->
  exists i t, nth_error (thr s) i = Some t /\ wslot c t = Some (r, e).
Definition goodEv (c : cfg) (T : list event) (e : event) : Prop :=
  match e with
  | ERes i (Found v la) => exists k, during i (OLookup k) T (fun A => stored c k A = Some (v, la))
  | ERes i NotFound => exists k, during i (OLookup k) T (fun A => stored c k A = None) \/ during i (ORemove k) T (fun A => stored c k A = None)
  | ERes i Removed => exists k, during i (ORemove k) T (fun A => holder c (tk c k) A <> None)
  | EEvict k v dt => exists v' la, holder c (tk c k) T = Some (k, v', la) /\ (dt = true -> v = v')
  | EReins k => exists v la, holder c (tk c k) T = Some (k, v, la)
  | EDrop k => holder c (tk c k) T <> None
  | EDispl t => holder c t T <> None /\ displaces c = true
  | EDtorRem k v => exists i, during i (ORemove k) T (fun A => exists la, stored c k A = Some (v, la))
  | _ => True
  end.
Definition good (c : cfg) (T : list event) : Prop := forall T1 e T2, T = T1 ++ e :: T2 -> goodEv c T1 e.

Record Core (c : cfg) (s : state) (T : list event) : Prop := mkCore {
  C_reg : forall r, regOk c s r;
  C_idx : idxOk c s T;
  C_job : uniqJob s;
  C_slot : uniqSlot c s;
  C_own : owned c s;
  C_good : good c T }.
Definition InvX (c : cfg) (s : state) (T : list event) (i : nat) : Prop :=
  Core c s T /\ forall j t, j <> i -> nth_error (thr s) j = Some t -> TInv c s T j t.
Definition Inv (c : cfg) (s : state) (T : list event) : Prop :=
  Core c s T /\ forall j t, nth_error (thr s) j = Some t -> TInv c s T j t.

(** ** Small facts *)
Lemma updl_same {A} (l : list A) i x y : nth_error l i = Some y -> nth_error (updl l i x) i = Some x.
Proof. revert i. induction l; intros [|i] H; cbn in *; try discriminate; auto. Qed.
Lemma updl_other {A} (l : list A) i j x : i <> j -> nth_error (updl l i x) j = nth_error l j.
Proof. revert i j. induction l; intros [|i] [|j] H; cbn; auto; try congruence. Qed.
Lemma fupd_same {A} (f : N -> A) x v : fupd f x v x = v.
Proof. unfold fupd. now rewrite N.eqb_refl. Qed.
Lemma fupd_other {A} (f : N -> A) x y v : y <> x -> fupd f x v y = f y.
Proof. unfold fupd. intro H. now destruct (N.eqb_spec y x). Qed.
Lemma noT_bool s P : negb (existsb P (thr s)) = true <-> noT s P.
Proof.
  rewrite negb_true_iff. split.
  - intros H j t Hj. destruct (P t) eqn:E; auto. exfalso. apply not_true_iff_false in H. apply H. apply existsb_exists. exists t. split; [now apply nth_error_In in Hj|auto].
  - intro H. apply not_true_iff_false. intro E. apply existsb_exists in E. destruct E as (t & I & Pt). apply In_nth_error in I. destruct I as (j & Hj). rewrite (H j t Hj) in Pt. discriminate.
Qed.
Lemma holder_app c t T e : holder c t (T ++ e) = fold_left (effect c t) e (holder c t T).
Proof. unfold holder. apply fold_left_app. Qed.
Lemma during_app i o T e P : during i o T P -> during i o (T ++ e) P.
Proof. intros (A & B & -> & H). exists A, (B ++ e). now rewrite app_assoc. Qed.
Lemma during_now i o T (P : list event -> Prop) : In (ECall i o) T -> P T -> during i o T P.
Proof. intros. exists T, []. now rewrite app_nil_r. Qed.
Lemma good_app c T e : good c T -> (forall e1 x e2, e = e1 ++ x :: e2 -> goodEv c (T ++ e1) x) -> good c (T ++ e).
Proof.
  intros G H T1 x T2 E.
  assert (C : (exists e1, T1 = T ++ e1 /\ e = e1 ++ x :: T2) \/ exists T3, T = T1 ++ x :: T3 /\ T2 = T3 ++ e).
  { clear - E. revert T1 E. induction T as [|a T IH]; intros T1 E; cbn in E.
    - left. exists T1. auto.
    - destruct T1 as [|b T1]; cbn in E; injection E as -> E.
      + right. exists T. auto.
      + destruct (IH T1 E) as [(e1 & Q1 & Q2)|(T3 & Q1 & Q2)]; [left; exists e1|right; exists T3]; subst; auto. }
  destruct C as [(e1 & -> & E2)|(T3 & -> & ->)]; [eapply H; eauto|eapply G; eauto].
Qed.

(** ** What another thread's invariant needs of a step *)
Definition uses (c : cfg) (s : state) (t : tst) (r : N) : Prop :=
  writes r t = true \/ hard c r t = true \/ jobReg t = Some r \/ (soft c r t = true /\ ph (regs s r) <> PDrop).

Lemma lin_frame c s s' T e i w k code hint :
  (forall x, sl s (fst (dec c code)) (snd (dec c code)) = Some x -> eW x = true -> sl s' (fst (dec c code)) (snd (dec c code)) = Some x) ->
  lin c s T i w k code hint -> lin c s' (T ++ e) i w k code hint.
Proof.
  intros H (A & B & k' & v & la & sz & -> & I & Ho & S & L). exists A, (B ++ e), k', v, la, sz.
  sp; auto; try (now apply H). now rewrite app_assoc.
Qed.

Lemma TInv_frame c s s' T e j t :
  TInv c s T j t ->
  (forall r z x, uses c s t r -> sl s r z = Some x -> eW x = true -> sl s' r z = Some x) ->
  (forall r z x, wslot c t = Some (r, z) -> sl s r z = Some x -> sl s' r z = Some x) ->
  (forall r, writes r t = true -> live s r -> live s' r) ->
  (seqn s <= seqn s') ->
  (forall r, soft c r t = true -> ph (regs s r) <> PDrop -> ph (regs s' r) = PDrop -> seqn s < seqn s') ->
  (forall r, jobReg t = Some r ->
     ph (regs s' r) = ph (regs s r) /\ blk (regs s' r) = blk (regs s r) /\ (noW s r -> noW s' r) /\
     (blk (regs s r) = true -> noR c s r -> noR c s' r) /\ (ph (regs s r) = PDet \/ ph (regs s r) = PDrop -> noH c s r -> noH c s' r) /\
     (noW s r -> (forall b, bnd c s r b -> bnd c s' r b) /\ forall x, mem s' r x = mem s r x)) ->
  TInv c s' (T ++ e) j t.
Proof.
  intros I HS HU HL HQ HD HJ.
  assert (JO : forall cl r, jobReg t = Some r -> jobOk c s cl r -> jobOk c s' cl r).
  { intros cl r J (P & R & W & B). destruct (HJ r J) as (J1 & J2 & J3 & J4 & _). unfold jobOk. rewrite J1, J2. sp; auto.
    intros X Y. destruct (B X Y). auto. }
  assert (JB : forall cl r b, jobReg t = Some r -> jobOk c s cl r -> bnd c s r b -> bnd c s' r b).
  { intros cl r b J (P & R & W & B) H. destruct (HJ r J) as (_ & _ & _ & _ & _ & J5). apply J5; auto. }
  destruct t; cbn [TInv] in *; auto.
  - (* IWrite *) destruct I as (A & B & C). sp; auto; try (eapply HU; eauto; reflexivity); try (apply HL; auto; cbn; apply N.eqb_refl).
  - destruct I as (A & B & C). sp; auto.
    + eapply HS; eauto. left. cbn. apply N.eqb_refl.
    + apply HL; auto. cbn. apply N.eqb_refl.
  - apply in_or_app. auto.
  - destruct I. split; [apply in_or_app; auto|lia].
  - destruct I as (A & B & [C|(C & D)]); sp; try (apply in_or_app; auto); try lia.
    destruct (ph (regs s' (fst (dec c code)))) eqn:E.
    5: { left. assert (seqn s < seqn s'); [|lia]. eapply HD; eauto. cbn. apply N.eqb_refl. }
    all: right; split; [|discriminate]; apply (lin_frame c s s'); [|exact C]; intros; eapply HS; eauto; right; right; right; split; auto; cbn; apply N.eqb_refl.
  - destruct I as (A & B & [C|(C & D)]); sp; try (apply in_or_app; auto); try lia.
    destruct (ph (regs s' (fst (dec c code)))) eqn:E.
    5: { left. assert (seqn s < seqn s'); [|lia]. eapply HD; eauto. cbn. apply N.eqb_refl. }
    all: right; split; [|discriminate]; apply (lin_frame c s s'); [|exact C]; intros; eapply HS; eauto; right; right; right; split; auto; cbn; apply N.eqb_refl.
  - apply (lin_frame c s s'); [|exact I]. intros. eapply HS; eauto. right; left. cbn. apply N.eqb_refl.
  - destruct I as (A & B). split; [apply in_or_app; auto|]. destruct res; auto. now apply during_app.
  - destruct I as (A & B). split; [apply in_or_app; auto|]. destruct ov; auto. now apply during_app.
  - destruct I as (A & B & C). destruct (HJ r eq_refl) as (-> & -> & _). auto.
  - destruct I as (A & B & C & D). sp; [now apply JO|intros X x; rewrite B by auto; symmetry; destruct A as (_ & _ & A & _); destruct (HJ r eq_refl) as (_ & _ & _ & _ & _ & J5); apply J5; auto|eapply JB; eauto|].
    destruct D as [D|(x & D & W)]; [auto|right]. exists x. split; auto. eapply HS; eauto. right; right; left; reflexivity.
  - destruct I as (A & B & x & p & S1 & S2 & S3). sp; eauto. exists x, p. sp; auto. eapply HS; eauto; [right; right; left; reflexivity|apply S3].
  - destruct I as (A & B & x & p & S1 & S2 & S3). sp; eauto. exists x, p. sp; auto. eapply HS; eauto; [right; right; left; reflexivity|apply S3].
  - destruct I as (A & B & N0 & R2 & Lv & x & p & S1 & S2 & S3 & S4 & S5). sp; eauto; [apply HL; auto; cbn; apply N.eqb_refl|].
    exists x, p. sp; auto; [eapply HS; eauto; [right; right; left; reflexivity|apply S3]|]. eapply HU; eauto. cbn. rewrite S2. reflexivity.
  - destruct I as (A & B & N0 & R2 & Lv & x & p & S1 & S2 & S3 & S4 & S5). sp; eauto; [apply HL; auto; cbn; apply N.eqb_refl|].
    exists x, p. sp; auto; [eapply HS; eauto; [right; right; left; reflexivity|apply S3]|]. eapply HS; eauto. left. cbn. apply N.eqb_refl.
  - destruct I as (A & B & N0 & x & p & S1 & S2 & S3). sp; eauto. exists x, p. sp; auto. eapply HS; eauto; [right; right; left; reflexivity|apply S3].
  - destruct I as (A & N0 & x & p & S1 & S2 & S3 & B). sp; eauto. exists x, p. sp; auto; [|eapply JB; eauto]. eapply HS; eauto; [right; right; left; reflexivity|apply S3].
  - destruct I as (A & B). sp; eauto.
  - destruct I as (A & B & C & D & E). destruct (HJ r eq_refl) as (J1 & J2 & J3 & J4 & J5 & J6). rewrite J1, J2. destruct (J6 B) as (J7 & _).
    sp; auto; [intros X; rewrite X in *; apply J5; auto|]. intros X Y. destruct (E X Y). split; auto.
  - destruct I as (A & B & C & D). destruct (HJ r eq_refl) as (J1 & J2 & J3 & J4 & J5 & J6). rewrite J1. destruct (J6 B) as (J7 & _). sp; auto.
  - destruct I as (A & B & C & D & E). destruct (HJ r eq_refl) as (J1 & J2 & J3 & J4 & J5 & J6). rewrite J1, J2. destruct (J6 B) as (J7 & _).
    sp; auto. intros X. destruct (E X) as (E1 & E2). split; auto.
Qed.
