(** Reader and writer counts; no check fails except possibly in the reset after a given-up flush. *)
From Coq Require Import List Arith Bool NArith ZArith Lia.
Import ListNotations.
From Verif Require Import RegMgr_model RegMgr_proofs RegMgr_proofs2.

Definition owns (r : nat) (t : tst) : bool := match okind t with Some (x, _) => Nat.eqb x r | None => false end.
Definition T (s : state) (r : nat) : nat :=
  cnt (fun x => Nat.eqb x r) (clean s) + cnt (fun x => Nat.eqb x r) (tracked s) + cnt (raHas r) (ras s) + cnt (owns r) (thr s).
Lemma owns_split r l : cnt (owns r) l = cnt (ownsK r KCl) l + cnt (ownsK r KNew) l + cnt (ownsK r KAct) l + cnt (ownsK r KFl) l + cnt (ownsK r KNb) l + cnt (ownsK r KRc) l.
Proof.
  induction l as [|t l IH]; cbn [cnt]; [reflexivity|]. rewrite IH.
  assert (b2n (owns r t) = b2n (ownsK r KCl t) + b2n (ownsK r KNew t) + b2n (ownsK r KAct t) + b2n (ownsK r KFl t) + b2n (ownsK r KNb t) + b2n (ownsK r KRc t)).
  { unfold owns, ownsK. destruct (okind t) as [[x k]|]; [|reflexivity]. destruct (Nat.eqb x r), k; reflexivity. }
  lia.
Qed.
Lemma T_one c n s r : own c n s -> T s r = b2n (r <? n).
Proof. intros O. rewrite <- (o_one _ _ _ O). unfold T, totAll, tot. rewrite owns_split. lia. Qed.
Lemma T_le c n s r : own c n s -> T s r <= 1.
Proof. intros O. rewrite (T_one c n s r O). apply b2n_le. Qed.
Lemma cnt2 {A} (p : A -> bool) l i j x y : nth_error l i = Some x -> nth_error l j = Some y -> i <> j -> p x = true -> p y = true -> 2 <= cnt p l.
Proof.
  revert i j. induction l as [|z l IH]; intros [|i] [|j] X1 X2 NE P Q1; cbn in *; try discriminate; try congruence.
  - injection X1 as ->. rewrite P. pose proof (cnt_pos p l y (nth_error_In _ _ X2) Q1). cbn. lia.
  - injection X2 as ->. rewrite Q1. pose proof (cnt_pos p l x (nth_error_In _ _ X1) P). cbn. lia.
  - specialize (IH i j X1 X2 ltac:(congruence) P Q1). lia.
Qed.
Lemma owns_ok r t k : okind t = Some (r, k) -> owns r t = true.
Proof. intros H. unfold owns. rewrite H. apply Nat.eqb_refl. Qed.
Lemma x_tt c n s i j t t' r k k' : own c n s -> nth_error (thr s) i = Some t -> nth_error (thr s) j = Some t' -> j <> i ->
  okind t = Some (r, k) -> okind t' = Some (r, k') -> False.
Proof.
  intros O A B NE C D. pose proof (cnt2 (owns r) (thr s) i j t t' A B ltac:(congruence) (owns_ok _ _ _ C) (owns_ok _ _ _ D)).
  pose proof (T_le c n s r O). unfold T in *. lia.
Qed.
Lemma x_tra c n s a x j t r k : own c n s -> nth_error (ras s) a = Some x -> rrid x = Some r -> nth_error (thr s) j = Some t ->
  okind t = Some (r, k) -> False.
Proof.
  intros O A B C D. pose proof (cnt_pos (owns r) (thr s) t (nth_error_In _ _ C) (owns_ok _ _ _ D)).
  pose proof (cnt_pos (raHas r) (ras s) x (nth_error_In _ _ A)). unfold raHas in H0 at 1. rewrite B in H0. specialize (H0 (Nat.eqb_refl r)).
  pose proof (T_le c n s r O). unfold T in *. lia.
Qed.
Definition listed (s : state) (r : nat) : Prop := In r (clean s) \/ In r (tracked s).
Lemma x_lt c n s j t r k : own c n s -> listed s r -> nth_error (thr s) j = Some t -> okind t = Some (r, k) -> False.
Proof.
  intros O A C D. pose proof (cnt_pos (owns r) (thr s) t (nth_error_In _ _ C) (owns_ok _ _ _ D)).
  pose proof (T_le c n s r O). unfold T in *.
  destruct A as [A|A]; pose proof (cnt_pos (fun x => Nat.eqb x r) _ r A (Nat.eqb_refl r)); lia.
Qed.
Lemma x_lra c n s a x r : own c n s -> listed s r -> nth_error (ras s) a = Some x -> rrid x = Some r -> False.
Proof.
  intros O A C D. pose proof (cnt_pos (raHas r) (ras s) x (nth_error_In _ _ C)). unfold raHas in H at 1. rewrite D in H. specialize (H (Nat.eqb_refl r)).
  pose proof (T_le c n s r O). unfold T in *.
  destruct A as [A|A]; pose proof (cnt_pos (fun x => Nat.eqb x r) _ r A (Nat.eqb_refl r)); lia.
Qed.

Definition isW (r : nat) (t : tst) : bool := match t with WHold x _ _ => Nat.eqb x r | _ => false end.
Definition isP (r : nat) (t : tst) : bool := match t with RChk x true _ _ | RHold x true _ | RClose x true => Nat.eqb x r | _ => false end.
Definition isM (r : nat) (t : tst) : bool := match t with RChk x false _ _ | RHold x false _ | RClose x false => Nat.eqb x r | _ => false end.
Definition treg (t : tst) : option nat :=
  match t with
  | WHold r _ _ | ROpen r _ _ | RChk r _ _ _ | RHold r _ _ | RClose r _ => Some r
  | _ => match okind t with Some (r, _) => Some r | None => None end
  end.
Definition Q (al : bool) (t : tst) (R : region) : Prop :=
  match t with
  | WHold _ b g => buf R = Some b /\ gen R = g /\ items R <> 0
  | FLoop _ _ _ | CWait _ _ => True
  | JWait _ => wr R = 0%Z /\ (al = false -> block R = true)
  | JRead _ | JSeq _ => wr R = 0%Z /\ (al = false -> block R = true /\ ph R = 0%Z /\ im R = 0%Z)
  | JWaitR _ => wr R = 0%Z /\ block R = true
  | JReset _ => wr R = 0%Z /\ block R = true /\ ph R = 0%Z /\ im R = 0%Z
  | _ => match okind t with Some _ => wr R = 0%Z | None => True end
  end.
Record winv (c : cfg) (s : state) : Prop := {
  w_cnt : forall r R, nth_error (regs s) r = Some R ->
    wr R = Z.of_nat (cnt (isW r) (thr s)) /\ ph R = Z.of_nat (cnt (isP r) (thr s)) /\ im R = Z.of_nat (cnt (isM r) (thr s));
  w_D : forall j t r, nth_error (thr s) j = Some t -> treg t = Some r -> exists R, nth_error (regs s) r = Some R /\ Q (allowRead c) t R;
  w_ls : forall r R, listed s r -> nth_error (regs s) r = Some R -> wr R = 0%Z;
  w_im : forall r R, nth_error (regs s) r = Some R -> buf R = None -> im R = 0%Z;
  w_idx : forall r g, In (r, g) (index s) -> r < length (regs s) }.

Definition SV (c : cfg) (n nb : nat) (s : state) : Prop := struct c n nb s /\ winv c s.
(** the holder of a descriptor is counted *)
Lemma cnt_W c s i r b g R : winv c s -> nth_error (thr s) i = Some (WHold r b g) -> nth_error (regs s) r = Some R -> (1 <= wr R)%Z.
Proof.
  intros W A B. destruct (w_cnt c s W r R B) as [-> _]. pose proof (cnt_pos (isW r) (thr s) _ (nth_error_In _ _ A)).
  cbn in H. specialize (H (Nat.eqb_refl r)). lia.
Qed.
Definition rdr (t : tst) : option (nat * bool) :=
  match t with RChk x p _ _ | RHold x p _ | RClose x p => Some (x, p) | _ => None end.
Lemma cnt_R c s i t r p R : winv c s -> nth_error (thr s) i = Some t -> rdr t = Some (r, p) -> nth_error (regs s) r = Some R ->
  (1 <= if p then ph R else im R)%Z.
Proof.
  intros W A C B. destruct (w_cnt c s W r R B) as (_ & P1 & P2).
  pose proof (cnt_pos (isP r) (thr s) _ (nth_error_In _ _ A)). pose proof (cnt_pos (isM r) (thr s) _ (nth_error_In _ _ A)).
  destruct t; try discriminate; injection C as -> ->; destruct p; cbn in *;
    try (specialize (H (Nat.eqb_refl r))); try (specialize (H0 (Nat.eqb_refl r))); lia.
Qed.

(** ** No check fails *)
Lemma no_bad c n nb s i t b k s' e : (regionSize c <= 2 ^ 30)%N -> SV c n nb s -> nth_error (thr s) i = Some t ->
  tstep c s i t b k = Some (s', e) -> In EBad e -> exists r q, t = CReset r q /\ e = [EBad; EReset r].
Proof.
  intros RS [ST W] E H I. destruct ST as [O L SZ B OU CE].
  pose proof (sane_all c n s i t RS O L SZ E) as SN.
  pose proof (w_D c s W i t) as D. specialize (fun r => D r E).
  assert (KO : forall r k0 R, okind t = Some (r, k0) -> nth_error (regs s) r = Some R -> okR k0 R).
  { intros r k0 R A B1. apply (o_ok c n s O r k0 R); [eapply tot_thr; eauto|exact B1]. }
  unfold tstep, openAlloc, startFlush in H.
  destruct t; cases H; subst; try (nobad SN; fail); cbn [In] in I; try tauto;
    unfold bad in I; try match type of I with In _ (if ?x then _ else _) => destruct x eqn:BX end; cbn [In] in I;
    try (exfalso; intuition discriminate).
  all: cbn [treg okind sane] in *; try specialize (D _ eq_refl); try destruct D as (R1 & N1 & Q1); cbn [Q okind] in *;
    try match goal with H : nth_error (regs _) _ = Some _ |- _ => rewrite N1 in H; injection H as -> end.
  - exfalso. destruct (SN _ _ _ Heqo Heqo0 Heqo1) as (_ & K1 & K2 & K3 & K4 & _). unfold openOk in BX. rewrite K1, K2, K3, K4 in BX. discriminate.
  - exfalso. destruct (SN _ _ _ Heqo Heqo0 Heqo1) as (K0 & K1 & K2 & K3 & K4 & _). rewrite K3, K4 in BX. destruct (buf r0); [discriminate|congruence].
  - exfalso. destruct (SN _ _ _ Heqo Heqo0 Heqo1) as (K0 & K1 & K2 & K3 & K4 & _). rewrite K3, K4 in BX. destruct (buf r0); [discriminate|congruence].
  - exfalso. destruct (KO _ _ _ eq_refl N1) as (K0 & _). rewrite K0 in BX. discriminate.
  - exfalso. destruct (KO _ _ _ eq_refl N1) as (_ & K1 & K2 & K3 & K4 & _). unfold openOk in BX. rewrite K1, K2, K3, K4 in BX. discriminate.
  - exfalso. pose proof (cnt_W c s i _ _ _ _ W E N1). apply Z.ltb_ge in BX. lia.
  - exfalso. destruct (o_ok c n s O n0 KAct r0 (tot_ra s a r n0 Heqo Heqo0) Heqo1) as (K0 & K1 & K2 & K3 & K4 & _). rewrite K3, K4 in BX. destruct (buf r0); [discriminate|congruence].
  - exfalso. destruct (KO _ _ _ eq_refl N1) as (K0 & _). destruct (buf r0); [discriminate|congruence].
  - exfalso. rewrite Q1 in BX. discriminate.
  - exfalso. destruct (KO _ _ _ eq_refl N1) as (K0 & _). destruct (buf r0); [discriminate|congruence].
  - exfalso. rewrite Q1 in BX. discriminate.
  - exists r, k0. split; reflexivity.
  - exfalso. pose proof (KO _ _ _ eq_refl N1) as K0. cbn in K0. rewrite K0 in BX. discriminate.
  - exfalso. pose proof (KO _ _ _ eq_refl N1) as K0. cbn in K0. rewrite K0 in BX. discriminate.
  - exfalso. unfold idle in BX. destruct Q1 as (Z1 & _ & Z2 & Z3). rewrite Z1, Z2, Z3 in BX. discriminate.
  - exfalso. pose proof (cnt_R c s i _ r p r0 W E eq_refl N1). apply orb_false_iff in BX. destruct BX as [-> BX].
    destruct (buf r0) eqn:EB; [discriminate|]. rewrite (w_im c s W r r0 N1 EB) in H. lia.
  - exfalso. pose proof (cnt_R c s i _ r true r0 W E eq_refl N1). cbn in H. apply Z.ltb_ge in BX. lia.
  - exfalso. pose proof (cnt_R c s i _ r false r0 W E eq_refl N1). cbn in H. apply Z.ltb_ge in BX. lia.
Qed.

(** ** Preservation *)
Ltac noevil :=
  match goal with H : ~ In EBad (bad ?x _) |- _ => let BX := fresh "BX" in destruct x eqn:BX; [clear H|exfalso; apply H; left; reflexivity] | _ => idtac end.
Lemma cnt_tstep c n nb s i t b k s' e : (regionSize c <= 2 ^ 30)%N -> SV c n nb s -> nth_error (thr s) i = Some t ->
  tstep c s i t b k = Some (s', e) -> ~ In EBad e ->
  forall r R, nth_error (regs s') r = Some R ->
    wr R = Z.of_nat (cnt (isW r) (thr s')) /\ ph R = Z.of_nat (cnt (isP r) (thr s')) /\ im R = Z.of_nat (cnt (isM r) (thr s')).
Proof.
  intros RS [ST W] E H NB r1 R1 N1. destruct ST as [O L SZ B OU CE].
  pose proof (sane_all c n s i t RS O L SZ E) as SN. pose proof (w_cnt c s W) as C.
  unfold tstep, openAlloc, startFlush in H.
  destruct t; cases H; subst; try (nobad SN; fail); noevil; proj; try exact (C r1 R1 N1);
    rewrite ?cnt_app; rewrite ?(cnt_rep0 _ JEvict) by reflexivity; cbn [cnt].
  all: try match goal with |- context [upd (thr _) _ (kontT ?k)] => destruct k end.
  all: try match goal with |- context [upd (thr _) _ (if ?x then _ else _)] => destruct x end.
  all: try match goal with |- context [upd (thr _) _ (match ?x with [] => _ | _ => _ end)] => destruct x end.
  all: try match goal with N1 : nth_error (upd _ _ _) _ = Some _ |- _ => rewrite nth_upd in N1 end.
  all: try match type of N1 with context [Nat.eqb ?x ?y] => destruct (Nat.eqb_spec x y) as [->|NE] end.
  all: try match goal with H : nth_error (regs _) ?x = Some ?z, N1 : context [nth_error (regs _) ?x] |- _ =>
         tryif constr_eq H N1 then fail else rewrite H in N1; injection N1 as <- end.
  all: match goal with H : nth_error (regs _) ?x = Some ?z |- context [cnt (isW ?x) _] => specialize (C x z H) end.
  all: cup; cbn [isW isP isM kontT cnt] in *; rewrite ?Nat.eqb_refl in *.
  all: repeat match goal with H : ?x <> ?y |- _ => rewrite ?(eqb_false _ _ H) in *; clear H end.
  all: cbn [b2n wr ph im rAlloc rPend rBuf rFlushed rCleaned rReset rMark rBlock rCnt] in *; try lia.
  all: repeat match goal with p : bool |- _ => destruct p end; cbn [isW isP isM kontT cnt b2n] in *; rewrite ?Nat.eqb_refl in *; cbn [b2n] in *; try lia.
  all: unfold idle in BX; apply Z.eqb_eq in BX; lia.
Qed.

Lemma Q_pend al t R : Q al t R -> Q al t (rPend R). Proof. destruct t; exact (fun x => x). Qed.
Lemma Q_flushed al t R : Q al t R -> Q al t (rFlushed R). Proof. destruct t; exact (fun x => x). Qed.
Lemma Q_cleaned al t R : Q al t R -> Q al t (rCleaned R). Proof. destruct t; exact (fun x => x). Qed.
Lemma Q_mark al x t R : Q al t R -> Q al t (rMark x R).
Proof. destruct t, x; cbn; auto; intuition. Qed.
Lemma Q_block al t R : Q al t R -> Q al t (rBlock R).
Proof. destruct t; cbn; auto; intuition. Qed.
Lemma Q_alloc al t R sz : okind t = None -> Q al t R -> Q al t (rAlloc R sz).
Proof. destruct t; cbn; auto; try discriminate. intros _ (A & B & C). auto. Qed.
Lemma Q_buf al t R b : isW (match treg t with Some r => r | None => 0 end) t = false -> Q al t R -> Q al t (rBuf R b).
Proof. destruct t; try (intros _; exact (fun x => x)). cbn. rewrite Nat.eqb_refl. discriminate. Qed.
Lemma Q_reset al t R : okind t = None -> isW (match treg t with Some r => r | None => 0 end) t = false -> Q al t (rReset R).
Proof. destruct t; cbn; auto; try discriminate. rewrite Nat.eqb_refl. discriminate. Qed.
Lemma Q_rdr al t R p m : block R = false \/ ((p <= ph R)%Z /\ (m <= im R)%Z /\ (ph R = 0%Z -> im R = 0%Z -> p = 0%Z /\ m = 0%Z)) ->
  Q al t R -> Q al t (rCnt R (wr R) p m).
Proof.
  intros H. destruct t; try exact (fun x => x); cbn; intros X.
  - destruct X as (A & B). split; [exact A|]. intros F. destruct (B F) as (B1 & B2 & B3). destruct H as [H|(_ & _ & H)]; [congruence|]. tauto.
  - destruct X as (A & B). split; [exact A|]. intros F. destruct (B F) as (B1 & B2 & B3). destruct H as [H|(_ & _ & H)]; [congruence|]. tauto.
  - destruct X as (A & B1 & B2 & B3). destruct H as [H|(_ & _ & H)]; [congruence|]. tauto.
Qed.
Lemma Q_wr al t R w : (1 <= wr R)%Z -> Q al t R -> Q al t (rCnt R w (ph R) (im R)).
Proof. intros H. destruct t; try exact (fun x => x); cbn; intros X; exfalso; try lia; destruct X; lia. Qed.
Lemma nth_app_or {A} (l ex : list A) j t : nth_error (l ++ ex) j = Some t -> nth_error l j = Some t \/ In t ex.
Proof.
  intros H. destruct (Nat.ltb_spec j (length l)).
  - rewrite nth_error_app1 in H by assumption. auto.
  - rewrite nth_error_app2 in H by assumption. right. eapply nth_error_In; eauto.
Qed.
Lemma keep al rs r0 R R' t r : nth_error rs r0 = Some R -> (r = r0 -> Q al t R -> Q al t R') ->
  (exists R1, nth_error rs r = Some R1 /\ Q al t R1) -> exists R1, nth_error (upd rs r0 R') r = Some R1 /\ Q al t R1.
Proof.
  intros A H (R1 & N1 & Q1). rewrite nth_upd. destruct (Nat.eqb_spec r r0) as [->|NE]; [|eauto].
  rewrite A in *. injection N1 as <-. exists R'. auto.
Qed.
Lemma okind_treg t r k : okind t = Some (r, k) -> treg t = Some r.
Proof. destruct t; cbn; congruence. Qed.
Lemma treg_okind t r : treg t = Some r -> okind t = None \/ exists k, okind t = Some (r, k).
Proof. destruct t; cbn; intros H; try discriminate; auto; injection H as ->; eauto. Qed.
Lemma noW c s j t r R : winv c s -> nth_error (thr s) j = Some t -> treg t = Some r -> nth_error (regs s) r = Some R -> wr R = 0%Z ->
  isW (match treg t with Some r => r | None => 0 end) t = false.
Proof.
  intros W N1 T1 N2 Z1. rewrite T1. destruct t; try reflexivity. cbn in T1. injection T1 as ->.
  pose proof (cnt_W c s j _ _ _ R W N1 N2). lia.
Qed.
Ltac oldcase D N1 T1 :=
  match type of N1 with nth_error (thr ?s) ?j = Some ?t1 =>
  match type of T1 with treg t1 = Some ?r1 =>
  match goal with |- exists R, nth_error (upd (regs s) ?x ?R') r1 = Some _ /\ Q ?al _ _ =>
  match goal with H : nth_error (regs s) x = Some ?z |- _ =>
     apply (keep al (regs s) x z R' t1 r1 H); [intros -> ?|exact (D j t1 r1 N1 T1)] end end end end.
Ltac newcase DI T1 :=
  cbn [treg okind kontT] in T1; injection T1 as <-; specialize (DI _ eq_refl);
  let R1 := fresh "R1" in let N2 := fresh "N2" in let Q1 := fresh "Q1" in
  destruct DI as (R1 & N2 & Q1);
  try match goal with H : nth_error (regs _) _ = Some _ |- _ =>
    tryif constr_eq H N2 then fail else (rewrite N2 in H; injection H as ->) end;
  rewrite ?nth_upd, ?Nat.eqb_refl, ?N2; eexists; split; [try reflexivity; try exact N2|];
  repeat match goal with
  | H : (_ && _)%bool = true |- _ => apply andb_true_iff in H; destruct H
  | H : (_ =? _)%Z = true |- _ => apply Z.eqb_eq in H
  | H : negb _ = false |- _ => apply negb_false_iff in H
  end;
  cbn [Q okind wr ph im block buf gen rPend rFlushed rCleaned rBuf rReset rMark rBlock rCnt] in *; try tauto; try (intuition congruence).
Lemma D_tstep c n nb s i t b k s' e : (regionSize c <= 2 ^ 30)%N -> SV c n nb s -> nth_error (thr s) i = Some t ->
  tstep c s i t b k = Some (s', e) -> ~ In EBad e ->
  forall j t r, nth_error (thr s') j = Some t -> treg t = Some r -> exists R, nth_error (regs s') r = Some R /\ Q (allowRead c) t R.
Proof.
  intros RS [ST W] E H NB j t1 r1 N1 T1. destruct ST as [O L SZ B OU CE].
  pose proof (sane_all c n s i t RS O L SZ E) as SN. pose proof (w_D c s W) as D. pose proof (fun r => D i t r E) as DI.
  unfold tstep, openAlloc, startFlush in H.
  destruct t; cases H; subst; try (nobad SN; fail); noevil; proj; try exact (D j t1 r1 N1 T1).
  all: try (apply nth_app_or in N1; destruct N1 as [N1|N1];
      [|try (apply repeat_spec in N1; subst t1; discriminate T1)]).
  all: try (rewrite nth_upd in N1; rewrite E in N1; destruct (Nat.eqb_spec j i) as [->|NE]; [injection N1 as <-|]).
  all: try (exact (D j t1 r1 N1 T1)).
  all: try (oldcase D N1 T1; first [apply Q_pend; assumption|apply Q_flushed; assumption|apply Q_cleaned; assumption
      |apply Q_mark; assumption|apply Q_block; assumption]; fail).
  all: try discriminate T1.
  all: try (destruct k0; discriminate T1).
  all: try (newcase DI T1; fail).
  - cbn in T1. injection T1 as <-. rewrite nth_upd, Nat.eqb_refl, Heqo1. eexists; split; [reflexivity|]. cbn. auto.
  - oldcase D N1 T1. apply Q_alloc; [|assumption]. destruct (treg_okind _ _ T1) as [X|[q X]]; [exact X|]. exfalso.
    exact (x_tra c n s a r j t1 n0 q O Heqo Heqo0 N1 X).
  - cbn in T1. injection T1 as <-. rewrite nth_upd, Nat.eqb_refl, Heqo1. eexists; split; [reflexivity|]. exact I.
  - destruct N1 as [<-|[]]. cbn in T1. injection T1 as <-. rewrite nth_upd, Nat.eqb_refl, Heqo1. eexists; split; [reflexivity|]. exact I.
  - destruct (clean s) as [|r l] eqn:EC; [discriminate T1|]. cbn in T1. injection T1 as <-.
    destruct (own_lt c n s r KCl O (tot_clean s r l EC)) as (R & N2 & _). exists R. split; [exact N2|]. cbn.
    apply (w_ls c s W r R); [left; rewrite EC; left; reflexivity|exact N2].
  - oldcase D N1 T1. apply Q_buf; [|assumption]. destruct (DI _ eq_refl) as (R1 & N2 & Q1). exact (noW c s j t1 r R1 W N1 T1 N2 Q1).
  - cbn in T1. injection T1 as <-. rewrite nth_upd, Nat.eqb_refl, Heqo0. eexists; split; [reflexivity|]. cbn. auto.
  - oldcase D N1 T1. apply Q_alloc; [|assumption]. destruct (treg_okind _ _ T1) as [X|[q X]]; [exact X|]. exfalso.
    exact (x_tt c n s i j _ t1 r KNew q O E N1 NE eq_refl X).
  - oldcase D N1 T1. apply Q_wr; [|assumption]. exact (cnt_W c s i _ _ _ _ W E Heqo).
  - cbn in T1. injection T1 as <-. rewrite nth_upd, Nat.eqb_refl, Heqo1. eexists; split; [reflexivity|]. exact I.
  - oldcase D N1 T1. apply Q_buf; [|assumption]. destruct (DI _ eq_refl) as (R1 & N2 & Q1). exact (noW c s j t1 r R1 W N1 T1 N2 Q1).
  - oldcase D N1 T1. apply Q_buf; [|assumption]. destruct (DI _ eq_refl) as (R1 & N2 & Q1). exact (noW c s j t1 r R1 W N1 T1 N2 Q1).
  - oldcase D N1 T1. apply Q_reset.
    + destruct (treg_okind _ _ T1) as [X|[q X]]; [exact X|]. exfalso. exact (x_tt c n s i j _ t1 r KNb q O E N1 NE eq_refl X).
    + destruct (DI _ eq_refl) as (R1 & N2 & Q1). exact (noW c s j t1 r R1 W N1 T1 N2 Q1).
  - cbn in T1. injection T1 as <-. destruct (own_lt c n s n0 KNb O (tot_tracked s k n0 Heqo)) as (R & N2 & _). exists R. split; [exact N2|].
    cbn. apply (w_ls c s W n0 R); [right; eapply nth_error_In; eauto|exact N2].
  - cbn in T1. injection T1 as <-. destruct (DI _ eq_refl) as (R1 & N2 & Q1). rewrite nth_upd, Nat.eqb_refl, Heqo. eexists; split; [reflexivity|].
    rewrite N2 in Heqo. injection Heqo as ->. cbn in *. split; [exact Q1|]. intros F. rewrite F. reflexivity.
  - cbn in T1. injection T1 as <-. destruct (DI _ eq_refl) as (R1 & N2 & Q1). rewrite N2 in Heqo. injection Heqo as ->. exists r0. split; [exact N2|].
    cbn in *. split; [apply Q1|]. intros F. rewrite F in *. unfold idle in Heqb0. apply Z.eqb_eq in Heqb0.
    destruct (w_cnt c s W r r0 N2) as (C1 & C2 & C3). split; [apply Q1; reflexivity|lia].
  - destruct (DI _ eq_refl) as (R1 & N2 & Q1). destruct (allowRead c) eqn:AL; cbn in T1; injection T1 as <-; exists R1; (split; [exact N2|]); cbn in *; intuition.
  - oldcase D N1 T1. apply Q_reset.
    + destruct (treg_okind _ _ T1) as [X|[q X]]; [exact X|]. exfalso. exact (x_tt c n s i j _ t1 r KRc q O E N1 NE eq_refl X).
    + destruct (DI _ eq_refl) as (R1 & N2 & Q1). exact (noW c s j t1 r R1 W N1 T1 N2 (proj1 Q1)).
  - cbn in T1. injection T1 as <-. apply nth_error_In in Heqo. apply (w_idx c s W) in Heqo. apply nth_error_Some in Heqo.
    destruct (nth_error (regs s) n0) as [R|]; [|congruence]. exists R. split; [reflexivity|exact I].
  - oldcase D N1 T1. apply Q_rdr; [left; assumption|assumption].
  - oldcase D N1 T1. apply Q_rdr; [left; assumption|assumption].
  - destruct (DI _ eq_refl) as (R1 & N2 & Q1). destruct (seqn s =? q); cbn in T1; injection T1 as <-; exists R1; (split; [exact N2|exact I]).
  - oldcase D N1 T1. apply Q_rdr; [right|assumption]. pose proof (cnt_R c s i _ r true r0 W E eq_refl Heqo). cbn in H0. lia.
  - oldcase D N1 T1. apply Q_rdr; [right|assumption]. pose proof (cnt_R c s i _ r false r0 W E eq_refl Heqo). cbn in H0. lia.
Qed.
Lemma in_del {A} (l : list A) i x : In x (del l i) -> In x l.
Proof.
  revert i. induction l as [|y l IH]; intros [|i] H; cbn in *; try tauto. destruct H as [->|H]; [left; reflexivity|right; eapply IH; exact H].
Qed.
Lemma ls_tstep c n nb s i t b k s' e : (regionSize c <= 2 ^ 30)%N -> SV c n nb s -> nth_error (thr s) i = Some t ->
  tstep c s i t b k = Some (s', e) -> ~ In EBad e ->
  forall r R, listed s' r -> nth_error (regs s') r = Some R -> wr R = 0%Z.
Proof.
  intros RS [ST W] E H NB r1 R1 LS N1. destruct ST as [O L SZ B OU CE].
  pose proof (sane_all c n s i t RS O L SZ E) as SN. pose proof (w_D c s W) as D. pose proof (fun r => D i t r E) as DI.
  pose proof (w_ls c s W) as WL.
  unfold tstep, openAlloc, startFlush in H. unfold listed in *.
  destruct t; cases H; subst; try (nobad SN; fail); noevil; proj; try exact (WL r1 R1 LS N1).
  all: try match goal with N1 : nth_error (upd _ _ _) _ = Some _ |- _ => rewrite nth_upd in N1 end.
  all: try match type of N1 with context [Nat.eqb ?x ?y] => destruct (Nat.eqb_spec x y) as [->|NE]; [|try exact (WL r1 R1 LS N1)] end.
  all: try match goal with H : nth_error (regs _) ?x = Some ?z, N1 : context [nth_error (regs _) ?x] |- _ =>
         tryif constr_eq H N1 then fail else rewrite H in N1; injection N1 as <- end.
  all: cbn [wr rPend rFlushed rCleaned rBuf rReset rMark rBlock rCnt] in *; try reflexivity.
  all: try (eapply WL; eassumption).
  - exfalso. exact (x_lra c n s a r n0 O LS Heqo Heqo0).
  - apply (WL r1); [|exact N1]. destruct LS as [LS|LS]; [left|right; exact LS]. destruct (clean s); [destruct LS|right; exact LS].
  - exfalso. exact (x_lt c n s i _ r KNew O LS E eq_refl).
  - destruct LS as [[<-|LS]|LS]; [|eauto|eauto]. destruct (DI _ eq_refl) as (R2 & N2 & Q1). rewrite N2 in N1. injection N1 as <-. exact Q1.
  - pose proof (cnt_W c s i _ _ _ _ W E Heqo). rewrite (WL r r0 LS Heqo) in H. lia.
  - destruct LS as [LS|[<-|LS]]; [eauto| |eauto]. destruct (DI _ eq_refl) as (R2 & N2 & Q1). rewrite N2 in N1. injection N1 as <-. exact Q1.
  - destruct LS as [[<-|LS]|LS]; [|eauto|eauto]. destruct (DI _ eq_refl) as (R2 & N2 & Q1). rewrite N2 in N1. injection N1 as <-. exact Q1.
  - apply (WL r1); [|exact N1]. destruct LS as [LS|LS]; [left; exact LS|right]. revert LS. apply in_del.
  - destruct LS as [[<-|LS]|LS]; [|eauto|eauto]. destruct (DI _ eq_refl) as (R2 & N2 & Q1). rewrite N2 in N1. injection N1 as <-. exact Q1.
Qed.
Lemma im_tstep c n nb s i t b k s' e : (regionSize c <= 2 ^ 30)%N -> SV c n nb s -> nth_error (thr s) i = Some t ->
  tstep c s i t b k = Some (s', e) -> ~ In EBad e ->
  forall r R, nth_error (regs s') r = Some R -> buf R = None -> im R = 0%Z.
Proof.
  intros RS [ST W] E H NB r1 R1 N1 BN. destruct ST as [O L SZ B OU CE].
  pose proof (sane_all c n s i t RS O L SZ E) as SN. pose proof (w_im c s W) as WI.
  unfold tstep, openAlloc, startFlush in H. unfold listed in *.
  destruct t; cases H; subst; try (nobad SN; fail); noevil; proj; try exact (WI r1 R1 N1 BN).
  all: try match goal with N1 : nth_error (upd _ _ _) _ = Some _ |- _ => rewrite nth_upd in N1 end.
  all: try match type of N1 with context [Nat.eqb ?x ?y] => destruct (Nat.eqb_spec x y) as [->|NE]; [|try exact (WI r1 R1 N1 BN)] end.
  all: try match goal with H : nth_error (regs _) ?x = Some ?z, N1 : context [nth_error (regs _) ?x] |- _ =>
         tryif constr_eq H N1 then fail else rewrite H in N1; injection N1 as <- end.
  all: cbn [im buf rAlloc rPend rFlushed rCleaned rBuf rReset rMark rBlock rCnt] in *; try reflexivity.
  all: try discriminate.
  all: try (eapply WI; eassumption).
  all: try (match goal with H : negb (im _ =? 0)%Z = false |- _ => apply negb_false_iff in H; apply Z.eqb_eq in H; exact H end).
  - rewrite BN, orb_true_r in Heqb1. discriminate.
  - pose proof (WI r r0 Heqo BN). pose proof (cnt_R c s i _ r false r0 W E eq_refl Heqo). cbn in H0. lia.
Qed.
Lemma in_noEntries r r' g l : In (r', g) (noEntries r l) <-> In (r', g) l /\ r' <> r.
Proof.
  unfold noEntries. rewrite filter_In. cbn [fst]. rewrite negb_true_iff, Nat.eqb_neq. tauto.
Qed.
Lemma idx_tstep c n nb s i t b k s' e : (regionSize c <= 2 ^ 30)%N -> SV c n nb s -> nth_error (thr s) i = Some t ->
  tstep c s i t b k = Some (s', e) ->
  length (regs s') = length (regs s) /\ forall r g, In (r, g) (index s') -> r < length (regs s').
Proof.
  intros RS [ST W] E H. pose proof (w_idx c s W) as WX. pose proof (fun r => w_D c s W i t r E) as DI.
  unfold tstep, openAlloc, startFlush in H.
  destruct t; cases H; subst; proj; rewrite ?length_upd; (split; [reflexivity|]); try exact WX.
  - intros r1 g1 [X|X]; [|exact (WX _ _ X)]. injection X as <- <-. destruct (DI _ eq_refl) as (R1 & N2 & _).
    apply nth_error_Some. congruence.
  - intros r1 g1 X. apply in_noEntries in X. exact (WX _ _ (proj1 X)).
  - intros r1 g1 X. apply in_noEntries in X. exact (WX _ _ (proj1 X)).
Qed.
Lemma winv_tstep c n nb s i t b k s' e : (regionSize c <= 2 ^ 30)%N -> SV c n nb s -> nth_error (thr s) i = Some t ->
  tstep c s i t b k = Some (s', e) -> ~ In EBad e -> winv c s'.
Proof.
  intros RS SW E H NB. constructor.
  - exact (cnt_tstep c n nb s i t b k s' e RS SW E H NB).
  - exact (D_tstep c n nb s i t b k s' e RS SW E H NB).
  - exact (ls_tstep c n nb s i t b k s' e RS SW E H NB).
  - exact (im_tstep c n nb s i t b k s' e RS SW E H NB).
  - exact (proj2 (idx_tstep c n nb s i t b k s' e RS SW E H)).
Qed.
Lemma winv_spawn c s t : winv c s -> treg t = None -> winv c (spawnT s t).
Proof.
  intros [A D LS IM IX] T1. constructor; proj; auto.
  - intros r R N1. rewrite !cnt_app. cbn [cnt].
    replace (isW r t) with false by (destruct t; try reflexivity; discriminate).
    replace (isP r t) with false by (destruct t; try reflexivity; discriminate).
    replace (isM r t) with false by (destruct t; try reflexivity; discriminate). cbn [b2n]. rewrite !Nat.add_0_r. apply A. exact N1.
  - intros j t' r N1 T2. apply nth_app_or in N1. destruct N1 as [N1|[<-|[]]]; [eauto|congruence].
Qed.
Lemma SV_step c n nb s a s' e : (regionSize c <= 2 ^ 30)%N -> SV c n nb s -> step c s a = Some (s', e) -> ~ In EBad e -> SV c n nb s'.
Proof.
  intros RS SW H NB. split; [eapply struct_step; eauto; apply SW|]. destruct SW as [ST W]. destruct a; cbn [step] in H.
  - cases H; [exact W|]. apply winv_spawn; auto.
  - injection H as <- <-. apply winv_spawn; auto.
  - injection H as <- <-. apply winv_spawn; auto.
  - injection H as <- <-. destruct W as [A D LS IM IX]. constructor; auto. proj. intros r g X. apply (IX r g). revert X. apply in_del.
  - destruct (nth_error (thr s) i) as [t|] eqn:E; [|discriminate].
    exact (winv_tstep c n nb s i t b k s' e RS (conj ST W) E H NB).
Qed.
Lemma winv_init c n nr nb : winv c (init n nr nb).
Proof.
  constructor; cbn [init regs thr index].
  - intros r R N1. apply nth_repeat in N1. subst R. cbn. auto.
  - intros [|j] t r N1; discriminate.
  - intros r R _ N1. apply nth_repeat in N1. subst R. reflexivity.
  - intros r R N1. apply nth_repeat in N1. subst R. reflexivity.
  - intros r g [].
Qed.
Lemma reach_SV c n nr nb s tr : (regionSize c <= 2 ^ 30)%N -> reach c n nr nb s tr -> ~ In EBad tr -> SV c n nb s.
Proof.
  intros RS R. induction R; intros NB; [split; [apply struct_init|apply winv_init]|].
  eapply SV_step; [exact RS|apply IHR|exact H|]; intros X; apply NB; apply in_app_iff; auto.
Qed.
