(** * Lifetime: inductive invariant. *)
From Coq Require Import List Arith Bool Lia.
Import ListNotations.
From Verif Require Import Lifetime_model.

Definition b2n (b : bool) : nat := if b then 1 else 0.

Lemma ideq_refl a : ideq a a = true.
Proof. unfold ideq. rewrite !Nat.eqb_refl. reflexivity. Qed.
Lemma ideq_eq a b : ideq a b = true <-> a = b.
Proof.
  unfold ideq. destruct a as [a1 a2], b as [b1 b2]; cbn [fst snd].
  rewrite Bool.andb_true_iff, !Nat.eqb_eq. split; [intros [-> ->]; auto|intros H; injection H; auto].
Qed.
Lemma ideq_neq a b : a <> b -> ideq a b = false.
Proof. intros H. destruct (ideq a b) eqn:E; auto. apply ideq_eq in E. contradiction. Qed.
Lemma id_dec (a b : id) : {a = b} + {a <> b}.
Proof. destruct (ideq a b) eqn:E; [left; apply ideq_eq; auto|right; intros ->; rewrite ideq_refl in E; discriminate]. Qed.

Lemma updf_same f a v : updf f a v a = v.
Proof. unfold updf. rewrite ideq_refl. reflexivity. Qed.
Lemma updf_other f a v b : a <> b -> updf f a v b = f b.
Proof. intros. unfold updf. rewrite ideq_neq; auto. Qed.
Lemma updb_same f a v : updb f a v a = v.
Proof. unfold updb. rewrite ideq_refl. reflexivity. Qed.
Lemma updb_other f a v b : a <> b -> updb f a v b = f b.
Proof. intros. unfold updb. rewrite ideq_neq; auto. Qed.

(** ** Contributions of a thread. *)
Definition thdls (t : tst) : list hdl :=
  match t with
  | FGot _ h => [h]
  | InChk h | InMM h | InPre h | InAC h | InRm h => [h]
  | OrChk h | OrMM h | OrPre h | OrAC h | OrFail h => [h]
  | OrWait h _ => [h]
  | OrRm h h2 => [h; h2]
  | RmAC h _ | RmMM h _ | XAC h => [h]
  | XMM h h2 => [h; h2]
  | RDec h _ => [h]
  | SMM _ n | SRep _ n | SRm _ n => [(n, true)]
  | SOld _ n | SUnm _ n | SWake _ n => [(n, false)]
  | THung (Some h) => [h]
  | _ => []
  end.

Definition cmov (c : acont) : list id := match c with KMove o => [o] | _ => [] end.
Definition nmov (n : rnext) : list id := match n with NEv o => [o] | _ => [] end.
Definition nfre (n : rnext) : list id := match n with NFree o => [o] | _ => [] end.

Definition lmov (t : tst) : list id :=
  match t with
  | AStart c | ANew c | EvAC c _ | EvMM c _ | EvUnm c _ | EvRel c _ | EvFree c _ => cmov c
  | RDec _ n | RRel _ _ n | RFree _ n => nmov n
  | SGo o | SMM o _ | SRep o _ | SRm o _ | SOld o _ | SUnm o _ | SEv o => [o]
  | _ => []
  end.
Definition lxo (t : tst) : list id :=
  match t with
  | EvAC _ a | EvMM _ a | EvUnm _ a => [a]
  | SEvAC o | SEvMM o | SEvUnm o => [o]
  | _ => []
  end.
Definition ldown (t : tst) : list id :=
  match t with
  | EvRel _ a | EvFree _ a => [a]
  | RRel a _ n | RFree a n => a :: nfre n
  | RDec _ n => nfre n
  | SWake o _ | SFree o | SEvWake o | SEvRel o | SEvFree o => [o]
  | _ => []
  end.
Definition lresp (t : tst) : list id :=
  match t with
  | InPre h | InAC h | InRm h | OrPre h | OrAC h | OrFail h => [fst h]
  | OrRm _ h2 => [fst h2]
  | RmMM h _ => [fst h]
  | XMM h _ => [fst h]
  | SRep _ n | SRm _ n => [n]
  | _ => []
  end.
Definition lpend (t : tst) : list id :=
  match t with
  | InMM h | InPre h | InAC h | OrMM h | OrPre h | OrAC h => [fst h]
  | SMM _ n | SRep _ n => [n]
  | _ => []
  end.
Definition lins (t : tst) : list id :=
  match t with
  | InChk h | InMM h | InPre h | InAC h | InRm h
  | OrChk h | OrMM h | OrPre h | OrAC h | OrFail h => [fst h]
  | SMM _ n | SRep _ n | SRm _ n => [n]
  | _ => []
  end.
Definition lnl (t : tst) : list id :=
  match t with EvUnm _ a => [a] | SEvUnm o => [o] | SUnm o _ => [o] | _ => [] end.
Definition lna (t : tst) : list id :=
  match t with EvMM _ a => [a] | SEvMM o => [o] | SOld o _ => [o] | _ => [] end.
(* dtor-bound owners beyond the exclusive ones *)
Definition lqf (t : tst) : list id :=
  match t with
  | EvRel _ a => [a]
  | RRel a false n => a :: nfre n
  | RRel _ true n | RDec _ n | RFree _ n => nfre n
  | SEvWake o | SEvRel o | SWake o _ | SFree o => [o]
  | _ => []
  end.
Definition lqt (t : tst) : list id := match t with RRel a true _ => [a] | _ => [] end.
Definition lqd (t : tst) : list id :=
  match t with EvFree _ a => [a] | SEvFree o => [o] | RFree a _ => [a] | _ => [] end.
(* the memory was freed without a move: the owner is not a finished mover *)
Definition lqm (t : tst) : list id :=
  match t with
  | SOld o _ | SUnm o _ | SWake o _ | SFree o => [o]
  | RDec _ n | RRel _ _ n | RFree _ n => nfre n
  | _ => []
  end.

Fixpoint cnt (l : list id) (a : id) : nat :=
  match l with [] => 0 | b :: r => b2n (ideq b a) + cnt r a end.
Fixpoint cn (l : list hdl) (a : id) : nat :=
  match l with [] => 0 | (b, nas) :: r => (if ideq b a then b2n nas else 0) + cn r a end.
Fixpoint cf (l : list hdl) (a : id) : nat :=
  match l with [] => 0 | (b, nas) :: r => (if ideq b a then b2n (negb nas) else 0) + cf r a end.

Fixpoint sm (f : tst -> nat) (l : list tst) : nat :=
  match l with [] => 0 | t :: r => f t + sm f r end.

Lemma sm_updl f : forall l i t t', nth_error l i = Some t ->
  sm f (updl l i t') + f t = sm f l + f t'.
Proof.
  induction l as [|x l IH]; intros i t t' H; destruct i; cbn in *; try discriminate.
  - injection H as ->. lia.
  - specialize (IH _ _ t' H). lia.
Qed.
Lemma sm_le f g : (forall t, f t <= g t) -> forall l, sm f l <= sm g l.
Proof. intros H l. induction l as [|t l IH]; cbn; auto. specialize (H t). lia. Qed.
Lemma sm_add f g : forall l, sm (fun t => f t + g t) l = sm f l + sm g l.
Proof. induction l as [|t l IH]; cbn; auto. lia. Qed.
Lemma sm_ge f : forall l i t, nth_error l i = Some t -> f t <= sm f l.
Proof.
  induction l as [|x l IH]; intros i t H; destruct i; cbn in *; try discriminate.
  - injection H as ->. lia.
  - specialize (IH _ _ H). lia.
Qed.
Lemma sm_pos f : forall l, 0 < sm f l -> exists i t, nth_error l i = Some t /\ 0 < f t.
Proof.
  induction l as [|x l IH]; cbn; intros H; [lia|].
  destruct (Nat.eq_dec (f x) 0) as [E|E].
  - destruct IH as [i [t [A B]]]; [lia|]. exists (S i), t. auto.
  - exists 0, x. cbn. split; auto. lia.
Qed.

Definition Sq (f : tst -> list id) (s : state) (a : id) := sm (fun t => cnt (f t) a) (thr s).
Definition Sn (s : state) (a : id) := sm (fun t => cn (thdls t) a) (thr s).
Definition Sf (s : state) (a : id) := sm (fun t => cf (thdls t) a) (thr s).

(** ** Trace counts. *)
Fixpoint ecnt (f : event -> bool) (l : list event) : nat :=
  match l with [] => 0 | e :: r => b2n (f e) + ecnt f r end.
Definition isAlloc a e := match e with EAlloc b => ideq b a | _ => false end.
Definition isFree a e := match e with EFree b => ideq b a | _ => false end.
Definition isDtor a e := match e with EDtor b => ideq b a | _ => false end.
Definition isPub a e := match e with EIns b => ideq b a | EMoved _ b => ideq b a | _ => false end.
Definition isMvd a e := match e with EMoved b _ => ideq b a | _ => false end.
Definition isBad e := match e with EUAF _ => true | EBad _ => true | _ => false end.

Definition ixn (s : state) (a : id) : nat :=
  match idx s (ikey a) with Some b => b2n (ideq b a) | None => 0 end.

(** ** The per-allocation invariant, as linear arithmetic. *)
Definition P (al rf l c x ws mv ix mmv Hn Hf hn hf m xo d r p n nl na qf qt qd qm
              tra trf trd trp trm lt : nat) : Prop :=
  al <= 1 /\ l <= 1 /\ c <= 1 /\ x <= 1 /\ ws <= 1 /\ mv <= 1 /\ lt <= 1
  /\ rf = Hn + Hf + hn + hf + m
  /\ x = m + xo /\ x + d <= 1
  /\ (1 <= d -> rf = 0 /\ l = 0 /\ c = 0 /\ x = 0 /\ al = 1)
  /\ (1 <= x -> Hn + Hf + hn + hf = 0 /\ al = 1)
  /\ (al = 0 -> rf = 0 /\ l = 0 /\ c = 0 /\ x = 0 /\ d = 0)
  /\ (al = 1 -> 1 <= rf + c + l + x + d)
  /\ (l = 1 /\ c = 0 -> 1 <= r + x)
  /\ n <= 1 /\ (1 <= p -> c = 0)
  /\ c = ix /\ mmv = l
  /\ (c = 1 -> ws = 1)
  /\ (ws = 0 -> Hf = 0 /\ hf = 0) /\ (ws = 1 -> Hn = 0 /\ hn = 0)
  /\ (ws = 0 -> rf <= 1)
  /\ (1 <= nl -> l = 0 /\ c = 0) /\ (1 <= na -> c = 0)
  /\ (1 <= qf + x -> ws = 1) /\ (1 <= qt -> ws = 0)
  /\ (al = 1 -> (ws = 0 -> trd = 0) /\ (ws = 1 -> trd = qd))
  /\ (al = 0 -> ((ws = 0 \/ mv = 1) -> trd = 0) /\ (ws = 1 /\ mv = 0 -> trd = 1))
  /\ (al = 1 -> mv = 0 /\ trm = qm) /\ (al = 0 -> trm = mv)
  /\ (mv = 1 -> ws = 1)
  /\ (ws = 0 -> trp = 0) /\ (ws = 1 -> 1 <= trp)
  /\ (al = 1 -> tra = 1 /\ trf = 0) /\ (al = 0 -> tra = trf /\ tra <= 1)
  /\ (al = 0 -> tra = 0 -> ws = 0)
  /\ (lt = 0 -> al = 0 /\ tra = 0).

Definition IA (s : state) (a : id) : Prop :=
  P (b2n (alive (it s a))) (ref (it s a)) (b2n (lnk (it s a))) (b2n (acc (it s a)))
    (b2n (exc (it s a))) (b2n (was (it s a))) (b2n (mvd (it s a))) (ixn s a) (b2n (mm s a))
    (cn (hs s) a) (cf (hs s) a) (Sn s a) (Sf s a)
    (Sq lmov s a) (Sq lxo s a) (Sq ldown s a) (Sq lresp s a) (Sq lpend s a) (Sq lins s a)
    (Sq lnl s a) (Sq lna s a) (Sq lqf s a) (Sq lqt s a) (Sq lqd s a) (Sq lqm s a)
    (ecnt (isAlloc a) (tr s)) (ecnt (isFree a) (tr s)) (ecnt (isDtor a) (tr s))
    (ecnt (isPub a) (tr s)) (ecnt (isMvd a) (tr s)) (b2n (snd a <? nexti s)).

(** Termwise inequalities between contributions, summed over the threads. *)
Definition TW (hn hf m xo d r p n nl na qf qt qd qm : nat) : Prop :=
  r <= hn + hf /\ p <= n /\ n <= hn + hf /\ nl <= m + xo /\ na <= m + xo
  /\ qf <= d /\ qt <= d /\ qd <= d /\ qm + qd <= m + d /\ qf + qt + qd = d.

Lemma tw_t t a :
  TW (cn (thdls t) a) (cf (thdls t) a) (cnt (lmov t) a) (cnt (lxo t) a) (cnt (ldown t) a)
     (cnt (lresp t) a) (cnt (lpend t) a) (cnt (lins t) a) (cnt (lnl t) a) (cnt (lna t) a)
     (cnt (lqf t) a) (cnt (lqt t) a) (cnt (lqd t) a) (cnt (lqm t) a).
Proof.
  unfold TW.
  destruct t; try (destruct c; cbn; lia); try (destruct n; cbn);
  repeat match goal with h : hdl |- _ => destruct h as [? []] end;
  try destruct nas; try destruct h; try (destruct h; destruct b);
  cbn; repeat match goal with |- context[ideq ?x ?y] => destruct (ideq x y) end; cbn; try lia.
Qed.

Lemma tw_s s a :
  TW (Sn s a) (Sf s a) (Sq lmov s a) (Sq lxo s a) (Sq ldown s a) (Sq lresp s a)
     (Sq lpend s a) (Sq lins s a) (Sq lnl s a) (Sq lna s a) (Sq lqf s a) (Sq lqt s a)
     (Sq lqd s a) (Sq lqm s a).
Proof.
  unfold Sn, Sf, Sq. induction (thr s) as [|t l IH]; cbn [sm].
  - unfold TW; lia.
  - pose proof (tw_t t a) as T. unfold TW in *. lia.
Qed.

(** ** Global part of the invariant. *)
Definition wft (t : tst) : Prop :=
  match t with
  | SMM o n | SRep o n | SRm o n | SOld o n | SUnm o n | SWake o n => ikey n = ikey o
  | _ => True
  end.
Definition waitk (k : nat) (t : tst) : nat :=
  match t with FWait _ k' | OrWait _ k' => b2n (k' =? k) | _ => 0 end.
Definition lmk (t : tst) : list id :=
  match t with
  | SWake o _ | SEvAC o | SEvMM o | SEvUnm o | SEvWake o => [o]
  | _ => lmov t
  end.
Fixpoint cntk (l : list id) (k : nat) : nat :=
  match l with [] => 0 | b :: r => b2n (ikey b =? k) + cntk r k end.
Definition Wt (s : state) (k : nat) := sm (waitk k) (thr s).
Definition Mk (s : state) (k : nat) := sm (fun t => cntk (lmk t) k) (thr s).

Record Inv (s : state) : Prop := {
  iA : forall a, IA s a;
  iK : forall k b, idx s k = Some b -> ikey b = k;
  iT : forall i t, nth_error (thr s) i = Some t -> wft t;
  iW : forall k, 1 <= Wt s k -> 1 <= Mk s k;
  iB : ecnt isBad (tr s) = 0
}.

Lemma mov_mk s a : Sq lmov s a <= Mk s (ikey a).
Proof.
  unfold Sq, Mk. apply sm_le. intros t.
  assert (forall l, cnt l a <= cntk l (ikey a)) as G.
  { induction l as [|b l IH]; cbn; auto. destruct (ideq b a) eqn:E; cbn [b2n].
    - apply ideq_eq in E. subst. rewrite Nat.eqb_refl. cbn. lia.
    - lia. }
  destruct t; cbn [lmk lmov]; auto; cbn; lia.
Qed.

Lemma sm_repeat0 f n : f TIdle = 0 -> sm f (repeat TIdle n) = 0.
Proof. intros H. induction n; cbn; auto. lia. Qed.

Lemma inv_init n : Inv (init n).
Proof.
  split.
  - intros a. unfold IA, Sn, Sf, Sq, ixn. cbn [init it nexti idx mm hs thr tr dead alive ref lnk acc exc was mvd b2n cn cf ecnt].
    rewrite !sm_repeat0 by reflexivity. cbn. unfold P. lia.
  - discriminate.
  - cbn. intros i t H. apply nth_error_In, repeat_spec in H. subst. exact I.
  - intros k. unfold Wt. cbn. rewrite sm_repeat0 by reflexivity. lia.
  - reflexivity.
Qed.

(** ** Tactics. *)
Lemma P_ext a1 a2 a3 a4 a5 a6 a7 a8 a9 a10 a11 a12 a13 a14 a15 a16 a17 a18 a19 a20 a21 a22 a23
  a24 a25 a26 a27 a28 a29 a30 a31
  b1 b2 b3 b4 b5 b6 b7 b8 b9 b10 b11 b12 b13 b14 b15 b16 b17 b18 b19 b20 b21 b22 b23
  b24 b25 b26 b27 b28 b29 b30 b31 :
  P a1 a2 a3 a4 a5 a6 a7 a8 a9 a10 a11 a12 a13 a14 a15 a16 a17 a18 a19 a20 a21 a22 a23
  a24 a25 a26 a27 a28 a29 a30 a31 ->
  b1=a1 -> b2=a2 -> b3=a3 -> b4=a4 -> b5=a5 -> b6=a6 -> b7=a7 -> b8=a8 -> b9=a9 -> b10=a10 ->
  b11=a11 -> b12=a12 -> b13=a13 -> b14=a14 -> b15=a15 -> b16=a16 -> b17=a17 -> b18=a18 ->
  b19=a19 -> b20=a20 -> b21=a21 -> b22=a22 -> b23=a23 -> b24=a24 -> b25=a25 -> b26=a26 ->
  b27=a27 -> b28=a28 -> b29=a29 -> b30=a30 -> b31=a31 ->
  P b1 b2 b3 b4 b5 b6 b7 b8 b9 b10 b11 b12 b13 b14 b15 b16 b17 b18 b19 b20 b21 b22 b23
  b24 b25 b26 b27 b28 b29 b30 b31.
Proof. intros. subst. assumption. Qed.


Definition ixv (f : nat -> option id) (a : id) : nat :=
  match f (ikey a) with Some b => b2n (ideq b a) | None => 0 end.
Lemma ixn_ixv s a : ixn s a = ixv (idx s) a.
Proof. reflexivity. Qed.
Lemma ixv_none f k o a : f k = Some o -> o <> a -> ixv (updk f k None) a = ixv f a.
Proof.
  intros H N. unfold ixv, updk. destruct (k =? ikey a) eqn:E; auto.
  apply Nat.eqb_eq in E. subst. rewrite H. rewrite ideq_neq; auto.
Qed.
Lemma ixv_none_same f a : ixv (updk f (ikey a) None) a = 0.
Proof. unfold ixv, updk. rewrite Nat.eqb_refl. reflexivity. Qed.
Lemma ixv_some_same f a : ixv (updk f (ikey a) (Some a)) a = 1.
Proof. unfold ixv, updk. rewrite Nat.eqb_refl, ideq_refl. reflexivity. Qed.
Lemma ixv_some_none f k n a : f k = None -> n <> a -> ixv (updk f k (Some n)) a = ixv f a.
Proof.
  intros H N. unfold ixv, updk. destruct (k =? ikey a) eqn:E; auto.
  apply Nat.eqb_eq in E. subst. rewrite H. rewrite ideq_neq; auto.
Qed.
Lemma ixv_some_some f k n o a : f k = Some o -> n <> a -> o <> a -> ixv (updk f k (Some n)) a = ixv f a.
Proof.
  intros H N M. unfold ixv, updk. destruct (k =? ikey a) eqn:E; auto.
  apply Nat.eqb_eq in E. subst. rewrite H. rewrite !ideq_neq; auto.
Qed.
Lemma ixv_some_old f k n o : f k = Some o -> ikey o = k -> n <> o -> ixv (updk f k (Some n)) o = 0.
Proof.
  intros H K N. unfold ixv, updk. rewrite K, Nat.eqb_refl, ideq_neq; auto.
Qed.
Lemma ixv_1 f a : ixv f a = 1 <-> f (ikey a) = Some a.
Proof.
  unfold ixv. destruct (f (ikey a)) as [b|]; [|split; [lia|discriminate]].
  destruct (ideq b a) eqn:E; cbn.
  - apply ideq_eq in E. subst. tauto.
  - split; [lia|]. intros H. injection H as ->. rewrite ideq_refl in E. discriminate.
Qed.

(** Consequences of owning something. *)
Definition OF (al rf l c x Hn Hf hn hf m xo d p r ws : nat) : Prop :=
  (1 <= Hn + Hf + hn + hf -> 1 <= rf /\ x = 0 /\ al = 1 /\ d = 0)
  /\ (1 <= m + xo -> al = 1 /\ x = 1 /\ ws = 1)
  /\ (1 <= d -> al = 1 /\ rf = 0 /\ l = 0 /\ c = 0 /\ x = 0)
  /\ (1 <= m -> rf = 1)
  /\ (l = 1 -> al = 1 /\ d = 0) /\ (c = 1 -> al = 1 /\ d = 0)
  /\ (x = 1 -> 1 <= rf -> 1 <= m)
  /\ (1 <= p -> c = 0)
  /\ (ws = 0 -> l = 1 -> 1 <= r)
  /\ (l = 1 -> rf = 0 -> x = 0 -> c = 1)
  /\ (ws = 0 -> rf <= 1)
  /\ (1 <= Hn + hn -> ws = 0) /\ (1 <= Hf + hf -> ws = 1).

(** Saturating forward chaining: decide each implication's premise with [lia]. *)
Definition hide (A B : Prop) : Prop := A -> B.
Lemma hid (A B : Prop) : (A -> B) -> hide A B. Proof. exact (fun x => x). Qed.
Lemma unhid (A B : Prop) : hide A B -> A -> B. Proof. exact (fun x => x). Qed.
Ltac dconj := repeat match goal with H : _ /\ _ |- _ => destruct H end.
Ltac hideall := repeat match goal with H : ?A -> ?B |- _ => match type of A with Prop => apply hid in H end end.
Definition hide2 (A B : Prop) : Prop := A -> B.
Lemma hid2 (A B : Prop) : hide A B -> hide2 A B. Proof. exact (fun x => x). Qed.
Lemma unhid2 (A B : Prop) : hide2 A B -> hide A B. Proof. exact (fun x => x). Qed.
Ltac cheap := repeat match goal with
  | H : hide ?A ?B, h : ?A |- _ =>
    let h2 := fresh in pose proof (unhid _ _ H h) as h2; clear H; dconj; hideall end.
Ltac pass := repeat match goal with
  | H : hide ?A ?B |- _ =>
    first [ let h := fresh in assert (h : A) by lia;
            let h2 := fresh in pose proof (unhid _ _ H h) as h2; clear H h; dconj; hideall
          | apply hid2 in H ] end;
  repeat match goal with H : hide2 _ _ |- _ => apply unhid2 in H end.
Ltac chain := hideall; cheap; pass; pass.
Ltac splt := match goal with H : hide ?A ?B |- _ =>
  let h := fresh in assert (h : A \/ ~ A) by lia; destruct h; chain; lia end.
Ltac gen1 e := let x := fresh "v" in set (x := e) in *; clearbody x.
Ltac gen := repeat match goal with
  | |- context[sm ?f ?l] => gen1 (sm f l)
  | H : context[sm ?f ?l] |- _ => gen1 (sm f l)
  | |- context[b2n ?b] => gen1 (b2n b)
  | H : context[b2n ?b] |- _ => gen1 (b2n b)
  | |- context[ecnt ?f ?l] => gen1 (ecnt f l)
  | |- context[cn ?f ?l] => gen1 (cn f l)
  | |- context[cf ?f ?l] => gen1 (cf f l)
  | |- context[ref ?b] => gen1 (ref b)
  | H : context[ref ?b] |- _ => gen1 (ref b)
  | |- context[ixv ?b ?c] => gen1 (ixv b c)
  | H : context[ixv ?b ?c] |- _ => gen1 (ixv b c)
  | |- context[cnt ?b ?c] => gen1 (cnt b c)
  | H : context[cnt ?b ?c] |- _ => gen1 (cnt b c)
  end.
Ltac deep := repeat match goal with |- _ /\ _ => split | |- _ -> _ => intro end; dconj;
  repeat match goal with H : _ \/ _ |- _ => destruct H end.
Ltac oth := eapply P_ext; [eassumption|..];
  repeat match goal with H : P _ _ _ _ _ _ _ _ _ _ _ _ _ _ _ _ _ _ _ _ _ _ _ _ _ _ _ _ _ _ _ |- _ => clear H end;
  try reflexivity; try lia.

Ltac pose_sums HN t' a :=
  let f q := (pose proof (sm_updl (fun t => cnt (q t) a) _ _ _ t' HN)) in
  f lmov; f lxo; f ldown; f lresp; f lpend; f lins; f lnl; f lna; f lqf; f lqt; f lqd; f lqm;
  pose proof (sm_updl (fun t => cn (thdls t) a) _ _ _ t' HN);
  pose proof (sm_updl (fun t => cf (thdls t) a) _ _ _ t' HN);
  let g q := (pose proof (sm_ge (fun t => cnt (q t) a) _ _ _ HN)) in
  g lmov; g lxo; g ldown; g lpend; g lins; g lresp;
  pose proof (sm_ge (fun t => cn (thdls t) a) _ _ _ HN);
  pose proof (sm_ge (fun t => cf (thdls t) a) _ _ _ HN).

Ltac clr0 := repeat match goal with H : 0 <= _ |- _ => clear H end.
Ltac arith := gen; unfold P, TW, OF in *; dconj; rewrite ?Nat.add_0_r in *; subst; clr0; chain;
  deep; cheap; try lia; try (pass; first [lia | pass; lia]).
Ltac unf :=
  unfold IA, Sn, Sf, Sq in *; rewrite ?ixn_ixv in *;
  cbn [it nexti idx mm hs thr tr back mmAdd decRef ev set_t set_it set_idx set_mm put_h set_hs] in *;
  unfold w_lnk, w_acc, w_ref, w_exc, w_free in *;
  cbn [alive ref lnk acc exc was mvd] in *.
Ltac cbs :=
  cbn [cnt cn cf thdls lmov lxo ldown lresp lpend lins lnl lna lqf lqt lqd lqm cmov nmov nfre goNext allocFailed fst snd ecnt isAlloc isFree isDtor isPub isMvd isBad b2n negb orb andb ckey lmk cntk waitk] in *.
Ltac upd :=
  repeat first
   [ rewrite updf_same in * | rewrite updb_same in * | rewrite ideq_refl in *
   | rewrite updf_other in * by congruence | rewrite updb_other in * by congruence
   | rewrite ideq_neq in * by congruence ];
  cbn [it nexti idx mm hs thr tr alive ref lnk acc exc was mvd b2n] in *.
Ltac rwf :=
  repeat match goal with
  | E : alive (it ?s ?a) = _ |- _ => rewrite E in *; clear E
  | E : lnk (it ?s ?a) = _ |- _ => rewrite E in *; clear E
  | E : acc (it ?s ?a) = _ |- _ => rewrite E in *; clear E
  | E : exc (it ?s ?a) = _ |- _ => rewrite E in *; clear E
  | E : was (it ?s ?a) = _ |- _ => rewrite E in *; clear E
  | E : mm ?s ?a = _ |- _ => rewrite E in *; clear E
  end; rewrite ?Bool.orb_false_r, ?Bool.orb_true_r in *.

Lemma nth_updl l i t' j t : nth_error (updl l i t') j = Some t -> t = t' \/ nth_error l j = Some t.
Proof.
  revert i j. induction l as [|x l IH]; intros i j H; destruct i, j; cbn in *; try discriminate; auto.
  - injection H as ->. auto.
  - eapply IH; eauto.
Qed.

(** Building the invariant of a state where only thread [i] has changed. *)
Lemma mk_inv s i t s1 t' :
  Inv s -> nth_error (thr s) i = Some t -> thr s1 = thr s ->
  (forall a, IA (set_t s1 i t') a) ->
  (forall k b, idx s1 k = Some b -> ikey b = k) ->
  wft t' ->
  (forall k, 1 <= waitk k t' -> 1 <= Mk s k) ->
  (forall k, cntk (lmk t) k <= cntk (lmk t') k) ->
  ecnt isBad (tr s1) = 0 ->
  Inv (set_t s1 i t').
Proof.
  intros Hi HN ET HA HK HT HW HM HB. split; auto.
  - cbn. rewrite ET. intros j u Hj. apply nth_updl in Hj. destruct Hj as [->|Hj]; auto.
    eapply iT; eauto.
  - intros k. unfold Wt, Mk. cbn [set_t thr]. rewrite ET.
    pose proof (sm_updl (waitk k) _ _ _ t' HN) as A.
    pose proof (sm_updl (fun t => cntk (lmk t) k) _ _ _ t' HN) as B. cbn beta in B.
    specialize (HM k). specialize (HW k). pose proof (iW _ Hi k) as W.
    unfold Wt, Mk in *. intros C.
    destruct (Nat.eq_dec (waitk k t') 0) as [E|E].
    + assert (1 <= sm (waitk k) (thr s)) as D by lia. specialize (W D). lia.
    + assert (1 <= waitk k t') as D by lia. specialize (HW D). lia.
Qed.

Lemma acc_idx s a : Inv s -> (acc (it s a) = true <-> idx s (ikey a) = Some a).
Proof.
  intros Hi. pose proof (iA _ Hi a) as Ha. unfold IA, P in Ha. rewrite ixn_ixv in Ha.
  rewrite <- ixv_1. destruct (acc (it s a)); cbn [b2n] in Ha.
  - split; intros; auto. destruct Ha as (_&_&_&_&_&_&_&_&_&_&_&_&_&_&_&_&_&E&_). auto.
  - split; intros; [discriminate|]. destruct Ha as (_&_&_&_&_&_&_&_&_&_&_&_&_&_&_&_&_&E&_). rewrite <- E in *. lia.
Qed.
Lemma acRemove_eq s a : Inv s -> acRemove s a =
  if acc (it s a) then set_idx (set_it s a (w_acc (it s a) false)) (ikey a) None else s.
Proof.
  intros Hi. unfold acRemove. destruct (acc (it s a)) eqn:E; auto.
  apply (acc_idx s a Hi) in E. rewrite E, ideq_refl. reflexivity.
Qed.
Lemma updk_key s k v : Inv s -> (forall b, v = Some b -> ikey b = k) ->
  forall k' b, updk (idx s) k v k' = Some b -> ikey b = k'.
Proof.
  intros Hi Hv k' b. unfold updk. destruct (k =? k') eqn:E.
  - apply Nat.eqb_eq in E. subst. apply Hv.
  - apply (iK _ Hi).
Qed.
