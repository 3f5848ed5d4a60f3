(** Ownership of regions and of buffers, allocator locks, the clean pool. *)
From Coq Require Import List Arith Bool NArith ZArith Lia.
Import ListNotations.
From Verif Require Import RegMgr_model.

Definition b2n (b : bool) : nat := if b then 1 else 0.
Fixpoint cnt {A} (p : A -> bool) (l : list A) : nat :=
  match l with [] => 0 | x :: r => b2n (p x) + cnt p r end.
Lemma cnt_app {A} (p : A -> bool) l r : cnt p (l ++ r) = cnt p l + cnt p r.
Proof. induction l as [|x l IH]; cbn; [reflexivity|rewrite IH; lia]. Qed.
Lemma cnt_upd {A} (p : A -> bool) l i t t' : nth_error l i = Some t -> cnt p (upd l i t') + b2n (p t) = cnt p l + b2n (p t').
Proof.
  revert i. induction l as [|x l IH]; intros [|i] H; cbn in *; try discriminate.
  - injection H as ->. lia.
  - specialize (IH i H). lia.
Qed.
Lemma cnt_del {A} (p : A -> bool) l i t : nth_error l i = Some t -> cnt p (del l i) + b2n (p t) = cnt p l.
Proof.
  revert i. induction l as [|x l IH]; intros [|i] H; cbn in *; try discriminate.
  - injection H as ->. lia.
  - specialize (IH i H). lia.
Qed.
Lemma cnt_pos {A} (p : A -> bool) l x : In x l -> p x = true -> 1 <= cnt p l.
Proof. induction l as [|y l IH]; cbn; [tauto|]. intros [->|H] E; [rewrite E; cbn; lia|]. specialize (IH H E). lia. Qed.
Lemma cnt_ex {A} (p : A -> bool) l : 1 <= cnt p l -> exists x, In x l /\ p x = true.
Proof.
  induction l as [|y l IH]; cbn; [lia|]. intros H. destruct (p y) eqn:E; [exists y; auto|].
  cbn in H. destruct (IH H) as (x & I & P). exists x; auto.
Qed.
Lemma cnt_zero {A} (p : A -> bool) l x : cnt p l = 0 -> In x l -> p x = false.
Proof. intros Z I. destruct (p x) eqn:E; [|reflexivity]. pose proof (cnt_pos p l x I E). lia. Qed.
Lemma cnt_le {A} (p q : A -> bool) l : (forall x, p x = true -> q x = true) -> cnt p l <= cnt q l.
Proof. intros H. induction l as [|y l IH]; cbn; [lia|]. specialize (H y). destruct (p y); [rewrite H by reflexivity|]; cbn; lia. Qed.
Lemma cnt_rep0 {A} (p : A -> bool) x n : p x = false -> cnt p (repeat x n) = 0.
Proof. intros H. induction n; cbn; [reflexivity|]. rewrite H. exact IHn. Qed.
Lemma cnt_rep1 {A} (p : A -> bool) x n : p x = true -> cnt p (repeat x n) = n.
Proof. intros H. induction n; cbn; [reflexivity|]. rewrite H, IHn. reflexivity. Qed.
Lemma in_upd {A} (l : list A) i t x : In x (upd l i t) -> x = t \/ In x l.
Proof.
  revert i. induction l as [|y l IH]; intros [|i] H; cbn in *; try tauto.
  - destruct H as [<-|H]; tauto.
  - destruct H as [<-|H]; [tauto|]. destruct (IH i H); tauto.
Qed.
Lemma length_upd {A} (l : list A) i x : length (upd l i x) = length l.
Proof. revert i. induction l as [|y l IH]; intros [|i]; cbn; auto. Qed.
Lemma nth_upd {A} (l : list A) i j x : nth_error (upd l i x) j =
  if Nat.eqb j i then match nth_error l i with Some _ => Some x | None => None end else nth_error l j.
Proof.
  revert i j. induction l as [|y l IH]; intros [|i] [|j]; cbn; auto.
  destruct (Nat.eqb j i); reflexivity.
Qed.

(** Who owns a region, and what that says about the region. *)
Inductive kind := KCl | KNew | KAct | KFl | KNb | KRc.
Definition keqb (a b : kind) : bool :=
  match a, b with KCl, KCl | KNew, KNew | KAct, KAct | KFl, KFl | KNb, KNb | KRc, KRc => true | _, _ => false end.
Definition okR (k : kind) (R : region) : Prop :=
  match k with
  | KCl => buf R = None /\ block R = false /\ recl R = false /\ pend R = false /\ flushed R = false /\ cleaned R = false /\ lastEnd R = 0%N /\ items R = 0
  | KNew => buf R <> None /\ block R = false /\ recl R = false /\ pend R = false /\ flushed R = false /\ cleaned R = false /\ lastEnd R = 0%N /\ items R = 0
  | KAct => buf R <> None /\ block R = false /\ recl R = false /\ pend R = false /\ flushed R = false /\ cleaned R = false
  | KFl => buf R <> None /\ block R = false /\ recl R = false
  | KNb => buf R = None /\ block R = false /\ recl R = false
  | KRc => buf R = None
  end.
Definition okind (t : tst) : option (nat * kind) :=
  match t with
  | WBuf _ _ r | WAttach _ _ r _ | WBack _ r | CPush r _ | JPush r => Some (r, KCl)
  | WAlloc _ _ r => Some (r, KNew)
  | FLoop r _ _ | FWrite r _ _ | FDetach r _ | CWait r _ | CCb r _ | CDetach r _ => Some (r, KFl)
  | FRet r _ _ | FTrack r _ | CRet r _ _ | CSeq r _ | CReset r _ | JMark r => Some (r, KNb)
  | JWait r | JRead r | JSeq r | JBlock r | JWaitR r | JReset r => Some (r, KRc)
  | _ => None
  end.
Definition ownsK (r : nat) (k : kind) (t : tst) : bool :=
  match okind t with Some (x, k') => Nat.eqb x r && keqb k' k | None => false end.
Definition raHas (r : nat) (x : rast) : bool := match rrid x with Some y => Nat.eqb y r | None => false end.
Definition tot (s : state) (r : nat) (k : kind) : nat :=
  (match k with
   | KCl => cnt (fun x => Nat.eqb x r) (clean s)
   | KNb => cnt (fun x => Nat.eqb x r) (tracked s)
   | KAct => cnt (raHas r) (ras s)
   | _ => 0
   end) + cnt (ownsK r k) (thr s).
Definition totAll (s : state) (r : nat) : nat :=
  tot s r KCl + tot s r KNew + tot s r KAct + tot s r KFl + tot s r KNb + tot s r KRc.
Record own (c : cfg) (n : nat) (s : state) : Prop := {
  o_len : length (regs s) = n;
  o_one : forall r, totAll s r = b2n (r <? n);
  o_ok : forall r k R, 1 <= tot s r k -> nth_error (regs s) r = Some R -> okR k R;
  o_end : forall r R, nth_error (regs s) r = Some R -> (lastEnd R <= regionSize c)%N }.

Definition hit (r0 : nat) (k0 : kind) (r : nat) (k : kind) : nat := b2n (Nat.eqb r0 r && keqb k0 k).
Lemma keqb_refl k : keqb k k = true.
Proof. destruct k; reflexivity. Qed.
Lemma hit_same r k : hit r k r k = 1.
Proof. unfold hit. rewrite Nat.eqb_refl, keqb_refl. reflexivity. Qed.
Lemma hit_other r0 k0 r k : r0 <> r -> hit r0 k0 r k = 0.
Proof. intros H. unfold hit. apply Nat.eqb_neq in H. rewrite H. reflexivity. Qed.
Lemma tot_le s r k : tot s r k <= totAll s r.
Proof. unfold totAll. destruct k; lia. Qed.
Lemma b2n_le b : b2n b <= 1.
Proof. destruct b; cbn; lia. Qed.

(** A region passes from one owner to another and changes its state. *)
Lemma own_transfer c n s s' r0 k1 k2 R R' :
  own c n s -> nth_error (regs s) r0 = Some R -> 1 <= tot s r0 k1 ->
  (forall r k, tot s' r k + hit r0 k1 r k = tot s r k + hit r0 k2 r k) ->
  regs s' = upd (regs s) r0 R' -> (okR k1 R -> okR k2 R') -> (lastEnd R' <= regionSize c)%N -> own c n s'.
Proof.
  intros [L O K EN] Nr P0 T RG OK LE. constructor.
  - rewrite RG, length_upd. exact L.
  - intros r. rewrite <- O. unfold totAll.
    pose proof (T r KCl); pose proof (T r KNew); pose proof (T r KAct); pose proof (T r KFl); pose proof (T r KNb); pose proof (T r KRc).
    unfold hit in *. destruct (Nat.eqb r0 r); destruct k1, k2; cbn in *; lia.
  - intros r k R1 P N1. rewrite RG, nth_upd in N1. destruct (Nat.eqb_spec r r0) as [->|NE].
    + rewrite Nr in N1. injection N1 as <-.
      assert (KK : k = k2).
      { pose proof (O r0) as O1. pose proof (b2n_le (r0 <? n)). generalize dependent (b2n (r0 <? n)). intros y O1 LY. pose proof (T r0 k1) as T1.
        pose proof (T r0 KCl); pose proof (T r0 KNew); pose proof (T r0 KAct); pose proof (T r0 KFl); pose proof (T r0 KNb); pose proof (T r0 KRc).
        unfold totAll in O1. unfold hit in *. rewrite Nat.eqb_refl in *. destruct k, k1, k2; cbn in *; try reflexivity; lia. }
      subst k. apply OK. exact (K r0 k1 R P0 Nr).
    + apply (K r k R1); [|exact N1]. specialize (T r k). rewrite !hit_other in T by congruence. lia.
  - intros r R1 N1. rewrite RG, nth_upd in N1. destruct (Nat.eqb_spec r r0) as [->|NE]; [|exact (EN r R1 N1)].
    rewrite Nr in N1. injection N1 as <-. exact LE.
Qed.
Lemma own_lt c n s r k : own c n s -> 1 <= tot s r k -> exists R, nth_error (regs s) r = Some R /\ okR k R /\ (lastEnd R <= regionSize c)%N.
Proof.
  intros [L O K EN] P. pose proof (tot_le s r k). pose proof (O r) as O1. destruct (Nat.ltb_spec r n) as [LT|]; [|change (b2n false) with 0 in O1; lia].
  destruct (nth_error (regs s) r) as [R|] eqn:E; [exists R; eauto|]. apply nth_error_None in E. lia.
Qed.
Lemma upd_same {A} (l : list A) i x : nth_error l i = Some x -> upd l i x = l.
Proof. revert i. induction l as [|y l IH]; intros [|i] H; cbn in *; try discriminate; [congruence|]. rewrite IH; auto. Qed.
(** ... or just changes owners *)
Lemma own_move c n s s' r0 k1 k2 :
  own c n s -> 1 <= tot s r0 k1 ->
  (forall r k, tot s' r k + hit r0 k1 r k = tot s r k + hit r0 k2 r k) ->
  regs s' = regs s -> (forall R, okR k1 R -> okR k2 R) -> own c n s'.
Proof.
  intros O P T RG OK. destruct (own_lt c n s r0 k1 O P) as (R & N1 & _ & LE).
  eapply (own_transfer c n s s' r0 k1 k2 R R); eauto. rewrite RG. symmetry. apply upd_same. exact N1.
Qed.
(** ... or nothing of the kind *)
Lemma own_same c n s s' :
  own c n s -> (forall r k, tot s' r k = tot s r k) -> regs s' = regs s -> own c n s'.
Proof.
  intros [L O K EN] T RG. constructor; rewrite ?RG; auto.
  - intros r. rewrite <- O. unfold totAll. rewrite !T. reflexivity.
  - intros r k R P. rewrite T in P. apply K. exact P.
Qed.
Lemma own_cnt c n s s' r0 R w p m :
  own c n s -> nth_error (regs s) r0 = Some R ->
  (forall r k, tot s' r k = tot s r k) -> regs s' = upd (regs s) r0 (rCnt R w p m) -> own c n s'.
Proof.
  intros [L O K EN] Nr T RG. constructor; rewrite ?RG, ?length_upd; auto.
  - intros r. rewrite <- O. unfold totAll. rewrite !T. reflexivity.
  - intros r k R1 P N1. rewrite T in P. rewrite nth_upd in N1. destruct (Nat.eqb_spec r r0) as [->|]; [|eauto].
    rewrite Nr in N1. injection N1 as <-. specialize (K r0 k R P Nr). destruct k; exact K.
  - intros r R1 N1. rewrite nth_upd in N1. destruct (Nat.eqb_spec r r0) as [->|]; [|eauto].
    rewrite Nr in N1. injection N1 as <-. exact (EN r0 R Nr).
Qed.

Ltac proj := cbn [regs ras clean tracked pool index seqn outst cleanEmpty thr locked rrid
   setRegs setRas setClean setTracked setPool setIndex setSeq setOut setCE setThr setReg goto spawnT setLock pushClean startFlush fst snd] in *.
Ltac case1 H :=
  match type of H with
  | Some _ = Some _ => injection H as <- <-
  | None = Some _ => discriminate H
  | (if ?x then _ else _) = _ => destruct x eqn:?
  | (match ?x with _ => _ end) = _ => destruct x eqn:?
  end.
Ltac cases H := repeat case1 H.

(** Allocation sizes are checked on entry. *)
Definition kontSz (k : kont) : option N := match k with KGet _ sz => Some sz | _ => None end.
Definition tkont (t : tst) : kont :=
  match t with
  | FLoop _ _ k | FWrite _ _ k | FDetach _ k | FRet _ _ k | FTrack _ k | CWait _ k | CCb _ k | CDetach _ k | CRet _ _ k
  | CSeq _ k | CReset _ k | CPush _ k => k
  | _ => KNone
  end.
Definition tsz (t : tst) : option N :=
  match t with
  | WLock _ sz | WTry _ sz | WGet _ sz | WBuf _ sz _ | WAttach _ sz _ _ | WAlloc _ sz _ => Some sz
  | _ => kontSz (tkont t)
  end.
Definition szInv (c : cfg) (s : state) : Prop := forall t sz, In t (thr s) -> tsz t = Some sz -> (0 < sz <= regionSize c)%N.
Lemma sz_upd c s i t t' : szInv c s -> nth_error (thr s) i = Some t -> (tsz t' = None \/ tsz t' = tsz t) ->
  forall u sz, In u (upd (thr s) i t') -> tsz u = Some sz -> (0 < sz <= regionSize c)%N.
Proof.
  intros I N1 E u sz H1 H2. destruct (in_upd _ _ _ _ H1) as [->|H3]; [|eauto].
  destruct E as [E|E]; [congruence|]. apply (I t sz); [eapply nth_error_In; eauto|congruence].
Qed.
Lemma sz_app c l t' : (forall u sz, In u l -> tsz u = Some sz -> (0 < sz <= regionSize c)%N) ->
  (forall sz, tsz t' = Some sz -> (0 < sz <= regionSize c)%N) ->
  forall u sz, In u (l ++ [t']) -> tsz u = Some sz -> (0 < sz <= regionSize c)%N.
Proof. intros A B u sz I E. apply in_app_iff in I. destruct I as [I|[<-|[]]]; eauto. Qed.
Lemma sz_rep c l n : (forall u sz, In u l -> tsz u = Some sz -> (0 < sz <= regionSize c)%N) ->
  forall u sz, In u (l ++ repeat JEvict n) -> tsz u = Some sz -> (0 < sz <= regionSize c)%N.
Proof. intros A u sz I E. apply in_app_iff in I. destruct I as [I|I]; eauto. apply repeat_spec in I. subst u. discriminate. Qed.
Lemma szInv_step c s a s' e : szInv c s -> step c s a = Some (s', e) -> szInv c s'.
Proof.
  intros I H. destruct a; cbn [step] in H.
  - cases H; [exact I|]. unfold szInv. proj. apply sz_app; [exact I|]. intros x [= <-].
    apply orb_false_iff in Heqb. destruct Heqb as [A B]. apply N.eqb_neq in A. apply N.ltb_ge in B. lia.
  - injection H as <- <-. unfold szInv. proj. apply sz_app; [exact I|]. cbn. discriminate.
  - injection H as <- <-. unfold szInv. proj. apply sz_app; [exact I|]. cbn. discriminate.
  - injection H as <- <-. exact I.
  - destruct (nth_error (thr s) i) as [t|] eqn:E; [|discriminate].
    unfold tstep, openAlloc, startFlush in H.
    destruct t; cases H; subst; unfold szInv; proj;
      try exact I;
      try (apply (sz_upd c s i _ _ I E); cbn [tsz tkont kontSz]; first [left; reflexivity | right; reflexivity]);
      try (apply sz_rep; apply (sz_upd c s i _ _ I E); cbn [tsz tkont kontSz]; first [left; reflexivity | right; reflexivity]).
    all: try (apply sz_app; [apply (sz_upd c s i _ _ I E); right; reflexivity|cbn; discriminate]).
    all: try (apply (sz_upd c s i _ _ I E); destruct k0; cbn; auto; fail).
    all: try (apply (sz_upd c s i _ _ I E); match goal with |- context [if ?x then _ else _] => destruct x end; left; reflexivity).
    all: try (apply sz_rep; apply (sz_upd c s i _ _ I E); destruct (clean s); cbn; auto; fail).
Qed.

Lemma tot_thr s i t r k : nth_error (thr s) i = Some t -> okind t = Some (r, k) -> 1 <= tot s r k.
Proof.
  intros N1 O. assert (1 <= cnt (ownsK r k) (thr s)).
  { apply (cnt_pos _ _ t); [eapply nth_error_In; eauto|]. unfold ownsK. rewrite O, Nat.eqb_refl, keqb_refl. reflexivity. }
  unfold tot. lia.
Qed.
Lemma tot_ra s a x r : nth_error (ras s) a = Some x -> rrid x = Some r -> 1 <= tot s r KAct.
Proof.
  intros N1 O. assert (1 <= cnt (raHas r) (ras s)).
  { apply (cnt_pos _ _ x); [eapply nth_error_In; eauto|]. unfold raHas. rewrite O. apply Nat.eqb_refl. }
  unfold tot. lia.
Qed.
Lemma tot_clean s r l : clean s = r :: l -> 1 <= tot s r KCl.
Proof. intros N1. unfold tot. rewrite N1. cbn. rewrite Nat.eqb_refl. cbn. lia. Qed.
Lemma tot_tracked s k r : nth_error (tracked s) k = Some r -> 1 <= tot s r KNb.
Proof.
  intros N1. assert (1 <= cnt (fun x => Nat.eqb x r) (tracked s)).
  { apply (cnt_pos _ _ r); [eapply nth_error_In; eauto|apply Nat.eqb_refl]. }
  unfold tot. lia.
Qed.

Ltac cup :=
  repeat match goal with
  | E : nth_error ?l ?i = Some ?t |- context [cnt ?p (upd ?l ?i ?t')] =>
      pose proof (cnt_upd p l i t t' E);
      generalize dependent (cnt p (upd l i t')); intros
  | E : nth_error ?l ?i = Some ?t |- context [cnt ?p (del ?l ?i)] =>
      pose proof (cnt_del p l i t E);
      generalize dependent (cnt p (del l i)); intros
  end.
Ltac totk :=
  cup; unfold hit, ownsK, raHas in *; cbn [okind tkont kontT rrid keqb cnt] in *;
  repeat match goal with
  | H : rrid ?x = Some _ |- _ => rewrite H in *
  | H : rrid ?x = None |- _ => rewrite H in *
  end;
  cbn [keqb b2n] in *; rewrite ?andb_true_r, ?andb_false_r in *; cbn [b2n] in *; try lia.
Ltac tots :=
  let r := fresh "r" in let k := fresh "k" in
  intros r k; unfold tot; proj; rewrite ?cnt_app;
  rewrite ?(cnt_rep0 _ JEvict) by reflexivity; destruct k; totk.

Lemma mod_small c R sz : (regionSize c <= 2 ^ 30)%N -> (lastEnd R <= regionSize c)%N -> (0 < sz <= regionSize c)%N ->
  ((lastEnd R + sz) mod 2 ^ 32 = lastEnd R + sz)%N.
Proof. intros A B C. apply N.mod_small. change (2 ^ 30)%N with 1073741824%N in A. change (2 ^ 32)%N with 4294967296%N. lia. Qed.
Lemma own_openAlloc_lt c R sz : (regionSize c <= 2 ^ 30)%N -> (lastEnd R <= regionSize c)%N -> (0 < sz <= regionSize c)%N ->
  canAllocate c R sz = true -> (lastEnd (rAlloc R sz) <= regionSize c)%N.
Proof. intros A B C D. unfold canAllocate in D. apply N.leb_le in D. exact D. Qed.

(** The lock of an allocator: held by at most one thread; while its region is being replaced it has none. *)
Definition kontA (k : kont) : option nat := match k with KNone => None | KUnlock a | KGet a _ => Some a end.
Definition thold (t : tst) : option nat :=
  match t with
  | WTry a _ | WGet a _ | WBuf a _ _ | WAttach a _ _ _ | WAlloc a _ _ | WBack a _ | WUnlock a | LTry a => Some a
  | _ => kontA (tkont t)
  end.
Definition kontN (k : kont) : option nat := match k with KGet a _ => Some a | _ => None end.
Definition tnone (t : tst) : option nat :=
  match t with
  | WGet a _ | WBuf a _ _ | WAttach a _ _ _ | WAlloc a _ _ => Some a
  | _ => kontN (tkont t)
  end.
Definition isA (o : option nat) (a : nat) : bool := match o with Some x => Nat.eqb x a | None => false end.
Definition holds (a : nat) (t : tst) : bool := isA (thold t) a.
Definition noneb (a : nat) (t : tst) : bool := isA (tnone t) a.
Lemma none_holds a t : noneb a t = true -> holds a t = true.
Proof. unfold noneb, holds. destruct t; cbn; auto; try discriminate; destruct k; cbn; auto; discriminate. Qed.
Record lockInv (s : state) : Prop := {
  l_one : forall a, cnt (holds a) (thr s) = match nth_error (ras s) a with Some x => b2n (locked x) | None => 0 end;
  l_none : forall a x, 1 <= cnt (noneb a) (thr s) -> nth_error (ras s) a = Some x -> rrid x = None }.

Lemma lock_same s s' : lockInv s -> ras s' = ras s -> (forall a, cnt (holds a) (thr s') = cnt (holds a) (thr s)) ->
  (forall a, cnt (noneb a) (thr s') <= cnt (noneb a) (thr s)) -> lockInv s'.
Proof.
  intros [A B] R1 H1 H2. constructor; intros a; rewrite R1; [rewrite H1; apply A|]. intros x P. apply B. specialize (H2 a). lia.
Qed.
Lemma lock_at s s' a0 x x' : lockInv s -> nth_error (ras s) a0 = Some x -> ras s' = upd (ras s) a0 x' ->
  (forall a, a <> a0 -> cnt (holds a) (thr s') = cnt (holds a) (thr s)) ->
  (forall a, a <> a0 -> cnt (noneb a) (thr s') <= cnt (noneb a) (thr s)) ->
  cnt (holds a0) (thr s') = b2n (locked x') -> (1 <= cnt (noneb a0) (thr s') -> rrid x' = None) -> lockInv s'.
Proof.
  intros [A B] N1 R1 H1 H2 H3 H4. constructor; intros a; rewrite R1, nth_upd; destruct (Nat.eqb_spec a a0) as [->|NE].
  - rewrite N1. exact H3.
  - rewrite H1 by exact NE. apply A.
  - rewrite N1. intros y P [= <-]. auto.
  - intros y P. apply B. specialize (H2 a NE). lia.
Qed.
Lemma eqb_false a b : a <> b -> Nat.eqb b a = false.
Proof. intros H. apply Nat.eqb_neq. congruence. Qed.
Ltac lk :=
  proj; rewrite ?cnt_app; rewrite ?(cnt_rep0 _ JEvict) by reflexivity;
  cup; unfold holds, noneb in *; cbn [thold tnone tkont kontA kontN kontT isA cnt] in *;
  rewrite ?Nat.eqb_refl in *;
  repeat match goal with H : ?x <> ?y |- _ => rewrite ?(eqb_false _ _ H) in *; clear H end;
  cbn [b2n] in *.

(** No check that would lose a region or a lock fails. *)
Definition sane (c : cfg) (s : state) (t : tst) : Prop :=
  match t with
  | WTry a _ => forall x r R, nth_error (ras s) a = Some x -> rrid x = Some r -> nth_error (regs s) r = Some R -> okR KAct R
  | WAlloc a sz r => forall x R, nth_error (ras s) a = Some x -> nth_error (regs s) r = Some R ->
      rrid x = None /\ canAllocate c R sz = true /\ buf R <> None
  | FDetach r _ | CDetach r _ => forall R, nth_error (regs s) r = Some R -> buf R <> None
  | _ => True
  end.
Lemma sane_all c n s i t : (regionSize c <= 2 ^ 30)%N -> own c n s -> lockInv s -> szInv c s -> nth_error (thr s) i = Some t -> sane c s t.
Proof.
  intros RS O [L1 L2] SZ E. destruct t; cbn [sane]; auto.
  - intros x r R A B C. apply (o_ok c n s O r KAct R); [eapply tot_ra; eauto|exact C].
  - intros x R A B. pose proof (o_ok c n s O r KNew R (tot_thr s i _ r KNew E eq_refl) B) as K.
    split; [|split; [|apply K]].
    + apply (L2 a x); [|exact A]. apply (cnt_pos _ _ (WAlloc a sz r)); [eapply nth_error_In; eauto|]. unfold noneb. cbn. apply Nat.eqb_refl.
    + unfold canAllocate. destruct K as (_ & _ & _ & _ & _ & _ & -> & _). rewrite N.add_0_l. apply N.leb_le.
      destruct (SZ (WAlloc a sz r) sz (nth_error_In _ _ E) eq_refl) as [_ LE].
      rewrite N.mod_small; [exact LE|]. change (2 ^ 30)%N with 1073741824%N in RS. change (2 ^ 32)%N with 4294967296%N. lia.
  - intros R B. pose proof (o_ok c n s O r KFl R (tot_thr s i _ r KFl E eq_refl) B) as K. apply K.
  - intros R B. pose proof (o_ok c n s O r KFl R (tot_thr s i _ r KFl E eq_refl) B) as K. apply K.
Qed.
Ltac nobad S :=
  exfalso; cbn [sane] in S;
  first
  [ match goal with
    | H1 : nth_error (ras _) _ = Some _, H2 : rrid _ = Some _, H3 : nth_error (regs _) _ = Some _, H4 : buf _ = None |- _ =>
        exact (proj1 (S _ _ _ H1 H2 H3) H4)
    end
  | match goal with
    | H1 : nth_error (ras _) _ = Some _, H3 : nth_error (regs _) _ = Some _, H4 : buf _ = None |- _ =>
        exact (proj2 (proj2 (S _ _ H1 H3)) H4)
    end
  | match goal with
    | H1 : nth_error (ras _) _ = Some _, H3 : nth_error (regs _) _ = Some _, H4 : isNone _ && _ = false |- _ =>
        destruct (S _ _ H1 H3) as (Sx & Sy & _); rewrite Sx, Sy in H4; discriminate H4
    end
  | match goal with
    | H3 : nth_error (regs _) _ = Some _, H4 : buf _ = None |- _ => exact (S _ H3 H4)
    end ].
Lemma holder_locked s i t a : lockInv s -> nth_error (thr s) i = Some t -> thold t = Some a ->
  exists x, nth_error (ras s) a = Some x /\ locked x = true /\ cnt (holds a) (thr s) = 1.
Proof.
  intros [L1 _] E H. specialize (L1 a).
  assert (1 <= cnt (holds a) (thr s)).
  { apply (cnt_pos _ _ t); [eapply nth_error_In; eauto|]. unfold holds. rewrite H. apply Nat.eqb_refl. }
  destruct (nth_error (ras s) a) as [x|]; [|lia]. exists x. destruct (locked x); [auto|cbn in L1; lia].
Qed.
Lemma lock_tstep c n s i t b k s' e : (regionSize c <= 2 ^ 30)%N -> own c n s -> lockInv s -> szInv c s ->
  nth_error (thr s) i = Some t -> tstep c s i t b k = Some (s', e) -> lockInv s'.
Proof.
  intros RS O L SZ E H. pose proof (sane_all c n s i t RS O L SZ E) as SN. unfold tstep, openAlloc, startFlush in H.
  destruct t; cases H; subst; try (nobad SN; fail).
  all: try (apply (lock_same s); [exact L|reflexivity|intros a1; lk; lia|intros a1; lk; lia]; fail).
  all: clear SN.
  all: try (destruct k0; (apply (lock_same s); [exact L|reflexivity|intros a1; lk; lia|intros a1; lk; lia]); fail).
  all: try match goal with |- lockInv (goto _ _ (if ?x then _ else _)) => destruct x end.
  all: try match goal with |- context [match ?x with [] => WUnlock _ | _ => _ end] => destruct x end.
  all: try (apply (lock_same s); [exact L|reflexivity|intros a1; lk; lia|intros a1; lk; lia]; fail).
  all: try match goal with E1 : nth_error (thr ?z) ?j = Some ?t, L1 : lockInv ?z |- _ =>
         let a := eval cbn in (thold t) in match a with Some ?a0 =>
         destruct (holder_locked z j _ a0 L1 E1 eq_refl) as (x0 & NX & LX & CX) end end.
  all: try match goal with A : nth_error (ras _) _ = Some _, B : nth_error (ras _) _ = Some _ |- _ => rewrite B in A; injection A as -> end.
  all: match goal with N0 : nth_error (ras ?z) ?a0 = Some ?y, L1 : lockInv ?z |- _ =>
         eapply (lock_at z _ a0 y); [exact L1|exact N0|first [reflexivity|symmetry; apply upd_same; proj; exact N0|idtac]| | | |] end.
  all: try (intros a1 NE; lk; lia).
  all: proj; cbn [locked rrid].
  all: try (intros; reflexivity).
  all: match goal with E1 : nth_error (thr ?z) ?j = Some _, L1 : lockInv ?z, N0 : nth_error (ras ?z) ?a0 = Some ?y |- _ =>
       pose proof (l_one z L1 a0) as ONE; rewrite N0 in ONE;
       pose proof (l_none z L1 a0 y) as NON; pose proof (cnt_le (noneb a0) (holds a0) (thr z) (none_holds a0)) as LE end.
  all: rewrite ?Heqb0 in *; try (rewrite LX in ONE).
  all: try (lk; lia).
  all: try (intros P; exfalso; revert P; lk; lia).
  all: try (intros P; apply NON; [revert P; lk; lia|assumption]).
  all: try (rewrite ?LX; lk; lia).
  all: try (intros _; assumption).
  intros P. exfalso. assert (rrid r = None); [apply NON; [revert P; lk; lia|assumption]|congruence].
Qed.
Ltac trans r0 k1 k2 P :=
  match goal with
  | O : own ?c ?n ?s, N0 : nth_error (regs ?s) r0 = Some ?R0 |- own ?c ?n ?z' =>
      pose proof (o_end c n s O r0 R0 N0);
      eapply (own_transfer c n s z' r0 k1 k2 R0); [exact O|exact N0|exact P|tots|reflexivity| |];
      [cbn [okR rAlloc rPend rBuf rFlushed rCleaned rReset rMark rBlock buf block recl pend flushed cleaned lastEnd items]; intuition congruence
      |cbn [rPend rBuf rFlushed rCleaned rReset rMark rBlock lastEnd]; try assumption; try apply N.le_0_l]
  end.
Lemma own_tstep c n s i t b k s' e : (regionSize c <= 2 ^ 30)%N -> own c n s -> lockInv s -> szInv c s ->
  nth_error (thr s) i = Some t -> tstep c s i t b k = Some (s', e) -> own c n s'.
Proof.
  intros RS O L SZ E H. pose proof (sane_all c n s i t RS O L SZ E) as SN. unfold tstep, openAlloc, startFlush in H.
  destruct t; cases H; subst; try (nobad SN; fail); proj; try (apply (own_same c n s); [exact O|tots|reflexivity]; fail).
  all: try (eapply own_cnt; [exact O|eassumption| |reflexivity]; tots; fail).
  all: try match goal with |- own _ _ (goto _ _ (if ?x then _ else _)) => destruct x end; try (apply (own_same c n s); [exact O|tots|reflexivity]; fail).
  all: try (destruct k0; (apply (own_same c n s); [exact O|tots|reflexivity]); fail).
  - trans n0 KAct KAct (tot_ra s a r n0 Heqo Heqo0). eapply own_openAlloc_lt; eauto. eapply SZ; [eapply nth_error_In; exact E|reflexivity].
  - trans n0 KAct KFl (tot_ra s a r n0 Heqo Heqo0).
  - trans n0 KAct KFl (tot_ra s a r n0 Heqo Heqo0).
  - destruct (clean s) as [|r l] eqn:EC.
    + apply (own_same c n s); [exact O| |reflexivity]. tots. rewrite EC. cbn. lia.
    + apply (own_move c n s _ r KCl KCl); [exact O|eapply tot_clean; eauto| |reflexivity|auto].
      tots. rewrite EC. cbn [tl cnt]. lia.
  - trans r KCl KNew (tot_thr s i _ r KCl E eq_refl).
  - apply andb_true_iff in Heqb0. destruct Heqb0 as [RN CA]. destruct (rrid r0) eqn:RR; [discriminate|].
    trans r KNew KAct (tot_thr s i _ r KNew E eq_refl). eapply own_openAlloc_lt; eauto. eapply SZ; [eapply nth_error_In; exact E|reflexivity].
  - trans n0 KAct KFl (tot_ra s a r n0 Heqo Heqo0).
  - trans r KFl KFl (tot_thr s i _ r KFl E eq_refl).
  - trans r KFl KNb (tot_thr s i _ r KFl E eq_refl).
  - trans r KFl KFl (tot_thr s i _ r KFl E eq_refl).
  - trans r KFl KNb (tot_thr s i _ r KFl E eq_refl).
  - trans r KNb KCl (tot_thr s i _ r KNb E eq_refl).
  - trans r KNb KRc (tot_thr s i _ r KNb E eq_refl).
  - trans r KRc KRc (tot_thr s i _ r KRc E eq_refl).
  - trans r KRc KCl (tot_thr s i _ r KRc E eq_refl).
Qed.
