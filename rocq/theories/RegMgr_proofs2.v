(** All structural invariants together: ownership, locks, buffers, pending reclaims. *)
From Coq Require Import List Arith Bool NArith ZArith Lia.
Import ListNotations.
From Verif Require Import RegMgr_model RegMgr_proofs.

Definition hasBuf (b : nat) (R : region) : bool := isA (buf R) b.
Definition ttrans (t : tst) : option nat :=
  match t with WAttach _ _ _ b | FRet _ b _ | CRet _ b _ => Some b | _ => None end.
Definition transit (b : nat) (t : tst) : bool := isA (ttrans t) b.
Definition isJ (t : tst) : bool :=
  match t with JEvict | JMark _ | JWait _ | JRead _ | JSeq _ | JBlock _ | JWaitR _ | JReset _ | JPush _ => true | _ => false end.
Record struct (c : cfg) (n nb : nat) (s : state) : Prop := {
  s_own : own c n s;
  s_lock : lockInv s;
  s_sz : szInv c s;
  s_buf : forall b, cnt (fun x => Nat.eqb x b) (pool s) + cnt (hasBuf b) (regs s) + cnt (transit b) (thr s) = b2n (b <? nb);
  s_out : outst s = cnt isJ (thr s);
  s_ce : cleanEmpty s = true -> clean s = [] /\ 0 < outst s }.

Ltac fin :=
  cbn [transit ttrans isA hasBuf isJ cnt buf tkont kontT rAlloc rPend rBuf rFlushed rCleaned rReset rMark rBlock rCnt b2n] in *.
Lemma buf_tstep c n nb s i t b k s' e : (regionSize c <= 2 ^ 30)%N -> struct c n nb s ->
  nth_error (thr s) i = Some t -> tstep c s i t b k = Some (s', e) ->
  forall b, cnt (fun x => Nat.eqb x b) (pool s') + cnt (hasBuf b) (regs s') + cnt (transit b) (thr s') = b2n (b <? nb).
Proof.
  intros RS [O L SZ B OU CE] E H b1. specialize (B b1). rewrite <- B. clear B.
  pose proof (sane_all c n s i t RS O L SZ E) as SN. unfold tstep, openAlloc, startFlush in H.
  assert (KB : match t with WAttach _ _ r _ => forall R, nth_error (regs s) r = Some R -> buf R = None | _ => True end).
  { destruct t; auto. intros R N1. apply (o_ok c n s O r KCl R (tot_thr s i _ r KCl E eq_refl) N1). }
  destruct t; cases H; subst; try (nobad SN; fail); proj; try reflexivity;
    rewrite ?cnt_app; rewrite ?(cnt_rep0 _ JEvict) by reflexivity; cbn [cnt].
  all: try match goal with |- context [upd (thr _) _ (kontT ?k)] => destruct k end.
  all: try match goal with |- context [upd (thr _) _ (if ?x then _ else _)] => destruct x end.
  all: try match goal with |- context [upd (thr _) _ (match ?x with [] => _ | _ => _ end)] => destruct x end.
  all: cup; unfold transit, hasBuf in *; cbn [ttrans isA isJ cnt buf kontT rAlloc rPend rBuf rFlushed rCleaned rReset rMark rBlock rCnt b2n] in *.
  all: try lia.
  all: repeat match goal with H : buf _ = _ |- _ => rewrite H in * end; cbn [isA] in *.
  all: try lia.
  - rewrite Heql. cbn [cnt]. lia.
  - rewrite (KB _ eq_refl) in *. cbn [isA b2n] in *. lia.
Qed.
Lemma misc_tstep c n nb s i t b k s' e : (regionSize c <= 2 ^ 30)%N -> struct c n nb s ->
  nth_error (thr s) i = Some t -> tstep c s i t b k = Some (s', e) ->
  outst s' = cnt isJ (thr s') /\ (cleanEmpty s' = true -> clean s' = [] /\ 0 < outst s').
Proof.
  intros RS [O L SZ B OU CE] E H.
  pose proof (sane_all c n s i t RS O L SZ E) as SN. unfold tstep, openAlloc, startFlush in H.
  assert (PJ : isJ t = true -> 1 <= cnt isJ (thr s)) by (intros; eapply cnt_pos; [eapply nth_error_In; eauto|assumption]).
  destruct t; cases H; subst; try (nobad SN; fail); proj; try (split; assumption);
    rewrite ?cnt_app; rewrite ?(cnt_rep1 _ JEvict) by reflexivity; cbn [cnt isJ b2n] in *.
  all: try match goal with |- context [upd (thr _) _ (kontT ?k)] => destruct k end.
  all: try match goal with |- context [upd (thr _) _ (if ?x then _ else _)] => destruct x end.
  all: try match goal with |- context [upd (thr _) _ (match ?x with [] => _ | _ => _ end)] => destruct x eqn:EC end.
  all: cup; cbn [isJ cnt kontT b2n tl isNil] in *.
  all: try (split; [lia|]; try assumption; try discriminate; fail).
  all: try (split; [lia|]; intros CC; try discriminate; try (destruct (CE CC) as [CC1 CC2]; split; [rewrite CC1; reflexivity|lia])).
  - split; [reflexivity|]. apply orb_true_iff in CC. destruct CC as [CC|CC]; [destruct (CE CC); lia|].
    cbn [andb] in CC. apply Nat.ltb_lt in CC. lia.
  - apply orb_true_iff in CC. destruct CC as [CC|CC]; [destruct (CE CC); discriminate|].
    apply andb_true_iff in CC. destruct CC as [C1 C2]. apply Nat.ltb_lt in C2. destruct l; [|discriminate]. split; [reflexivity|lia].
Qed.

Lemma struct_spawn c n nb s t : struct c n nb s -> okind t = None -> thold t = None -> tnone t = None -> ttrans t = None -> isJ t = false ->
  (forall sz, tsz t = Some sz -> (0 < sz <= regionSize c)%N) -> struct c n nb (spawnT s t).
Proof.
  intros [O L SZ B OU CE] A1 A2 A3 A4 A5 A6.
  constructor; proj; auto.
  - apply (own_same c n s); [exact O| |reflexivity]. intros r k. unfold tot. proj. rewrite cnt_app. cbn [cnt]. unfold ownsK at 2. rewrite A1. cbn. lia.
  - apply (lock_same s); [exact L|reflexivity| |]; intros a; proj; rewrite cnt_app; cbn [cnt]; unfold holds, noneb; rewrite ?A2, ?A3; cbn; lia.
  - unfold szInv. proj. apply sz_app; [exact SZ|exact A6].
  - intros b. rewrite cnt_app. cbn [cnt]. unfold transit at 2. rewrite A4. cbn [isA b2n]. rewrite <- B. lia.
  - rewrite cnt_app. cbn [cnt]. rewrite A5. cbn. lia.
Qed.
Lemma struct_step c n nb s a s' e : (regionSize c <= 2 ^ 30)%N -> struct c n nb s -> step c s a = Some (s', e) -> struct c n nb s'.
Proof.
  intros RS ST H. pose proof (szInv_step c s a s' e (s_sz _ _ _ _ ST) H) as SZ'. destruct a; cbn [step] in H.
  - cases H; [exact ST|]. apply struct_spawn; auto. intros x [= <-].
    apply orb_false_iff in Heqb. destruct Heqb as [A B]. apply N.eqb_neq in A. apply N.ltb_ge in B. lia.
  - injection H as <- <-. apply struct_spawn; auto. discriminate.
  - injection H as <- <-. apply struct_spawn; auto. discriminate.
  - injection H as <- <-. destruct ST as [O L SZ B OU CE]. constructor; auto.
    + apply (own_same c n s); auto.
    + apply (lock_same s); auto.
  - destruct (nth_error (thr s) i) as [t|] eqn:E; [|discriminate].
    destruct (misc_tstep c n nb s i t b k s' e RS ST E H). constructor; auto.
    + exact (own_tstep c n s i t b k s' e RS (s_own _ _ _ _ ST) (s_lock _ _ _ _ ST) (s_sz _ _ _ _ ST) E H).
    + exact (lock_tstep c n s i t b k s' e RS (s_own _ _ _ _ ST) (s_lock _ _ _ _ ST) (s_sz _ _ _ _ ST) E H).
    + eapply buf_tstep; eauto.
Qed.

Lemma cnt_seq r st n : cnt (fun x => Nat.eqb x r) (seq st n) = b2n ((st <=? r) && (r <? st + n)).
Proof.
  revert st. induction n as [|n IH]; intros st; cbn [seq cnt].
  - destruct (Nat.leb_spec st r), (Nat.ltb_spec r (st + 0)); cbn; lia.
  - rewrite IH. destruct (Nat.eqb_spec st r), (Nat.leb_spec (S st) r), (Nat.leb_spec st r), (Nat.ltb_spec r (S st + n)), (Nat.ltb_spec r (st + S n)); cbn; lia.
Qed.
Lemma cnt_rev {A} (p : A -> bool) l : cnt p (rev l) = cnt p l.
Proof. induction l as [|x l IH]; cbn; [reflexivity|]. rewrite cnt_app, IH. cbn. lia. Qed.
Lemma nth_repeat {A} (x y : A) n i : nth_error (repeat x n) i = Some y -> y = x.
Proof. intros H. apply nth_error_In in H. apply repeat_spec in H. exact H. Qed.
Lemma struct_init c n nr nb : struct c n nb (init n nr nb).
Proof.
  constructor.
  - constructor; cbn [init regs].
    + apply repeat_length.
    + intros r. unfold totAll, tot. cbn [init clean tracked ras thr cnt]. rewrite cnt_rev, cnt_seq.
      rewrite cnt_rep0 by reflexivity. change (0 + n) with n. cbn [Nat.leb andb]. lia.
    + intros r k R P N1. apply nth_repeat in N1. subst R. unfold tot in P. cbn [init clean tracked ras thr cnt] in P.
      destruct k; cbn in *; try lia; try (repeat split; reflexivity). rewrite cnt_rep0 in P by reflexivity. lia.
    + intros r R N1. apply nth_repeat in N1. subst R. cbn. apply N.le_0_l.
  - constructor; cbn [init thr cnt ras].
    + intros a. destruct (nth_error _ a) eqn:E; [|reflexivity]. apply nth_repeat in E. subst r. reflexivity.
    + intros a x P. lia.
  - intros t sz [].
  - intros b. cbn [init pool regs thr cnt]. rewrite cnt_seq, cnt_rep0 by reflexivity. cbn. lia.
  - reflexivity.
  - discriminate.
Qed.

Inductive reach (c : cfg) (n nr nb : nat) : state -> list event -> Prop :=
| reach_init : reach c n nr nb (init n nr nb) []
| reach_step s tr a s' e : reach c n nr nb s tr -> step c s a = Some (s', e) -> reach c n nr nb s' (tr ++ e).
Lemma run_reach c n nr nb s tr l s' e : reach c n nr nb s tr -> run c s l = Some (s', e) -> reach c n nr nb s' (tr ++ e).
Proof.
  revert s tr e. induction l as [|a l IH]; intros s tr e R H; cbn [run] in H.
  - injection H as <- <-. rewrite app_nil_r. exact R.
  - destruct (step c s a) as [[s1 e1]|] eqn:E; [|discriminate].
    destruct (run c s1 l) as [[s2 e2]|] eqn:F; [|discriminate]. injection H as <- <-.
    rewrite app_assoc. eapply IH; [|exact F]. eapply reach_step; [exact R|exact E].
Qed.
Lemma reach_struct c n nr nb s tr : (regionSize c <= 2 ^ 30)%N -> reach c n nr nb s tr -> struct c n nb s.
Proof. intros RS R. induction R; [apply struct_init|eapply struct_step; eauto]. Qed.
