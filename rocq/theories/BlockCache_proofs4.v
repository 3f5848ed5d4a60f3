(** Every step keeps the invariant, as long as nothing unsafe happens. *)
From Coq Require Import List NArith Bool Lia.
From Verif Require Import Bytes AddrCode_model AddrCode_spec AddrCode_proofs AddrCode_props BlockCache_model BlockCache_spec BlockCache_proofs BlockCache_proofs2 BlockCache_proofs3.
Import ListNotations.
Local Open Scope N_scope.
Ltac Zify.zify_post_hook ::= idtac.

Arguments dec : simpl never.
Arguments enc : simpl never.
Arguments parseAt : simpl never.
Arguments readEntry : simpl never.
Arguments writeEntry : simpl never.
Arguments serializedSize : simpl never.
Arguments decodeSizeHint : simpl never.
Arguments encodeSizeHint : simpl never.
Lemma noT_goto s i t P : noT s P -> P t = false -> noT (goto s i t) P.
Proof.
  intros H E j u Hj. cbn [thr goto] in Hj. destruct (Nat.eq_dec j i) as [->|NE].
  - destruct (nth_error (thr s) i) as [y|] eqn:Q; [erewrite updl_same in Hj by eauto; congruence|].
    assert (L : (length (updl (thr s) i t) <= i)%nat).
    { apply nth_error_None in Q. assert (LL : forall (l : list tst) n, length (updl l n t) = length l) by (induction l; intros [|n]; cbn; auto). rewrite LL. exact Q. }
    apply nth_error_None in L. congruence.
  - rewrite updl_other in Hj by auto. eapply H; eauto.
Qed.
Lemma good1 c T x : goodEv c T x -> forall e1 y e2, [x] = e1 ++ y :: e2 -> goodEv c (T ++ e1) y.
Proof. intros G [|a e1] y e2 E; cbn in E; injection E as -> E; [now rewrite app_nil_r|destruct e1; discriminate]. Qed.
Lemma good0 c T : forall e1 y e2, [] = e1 ++ y :: e2 -> goodEv c (T ++ e1) y.
Proof. intros [|a e1] y e2 E; discriminate. Qed.

(** a step that only moves thread i to a state without region *)
Definition plain (c : cfg) (t : tst) : Prop :=
  (forall r, writes r t = false) /\ (forall r, reads c r t = false) /\ (forall r, hard c r t = false) /\ wslot c t = None.
Lemma go_plain c s T i t0 t1 e : InvX c s T i -> nth_error (thr s) i = Some t0 -> plain c t1 ->
  (forall r, jobReg t1 = Some r -> jobReg t0 = Some r) -> (forall p, wslot c t0 = Some p -> exists x, sl s (fst p) (snd p) = Some x /\ eW x = true) ->
  (forall t a, fold_left (effect c t) e a = a) -> (forall e1 x e2, e = e1 ++ x :: e2 -> goodEv c (T ++ e1) x) ->
  TInv c (goto s i t1) (T ++ e) i t1 -> Inv c (goto s i t1) (T ++ e).
Proof.
  intros I H0 (P1 & P2 & P3 & P4) HJ HW NE G TI. pose proof (X_ext c s T i e I NE G) as I1.
  eapply X_Inv; [|eapply updl_same; exact H0|exact TI].
  eapply X_goto; eauto.
  - intros r E. rewrite P1 in E. discriminate.
  - intros r E. rewrite P2 in E. discriminate.
  - intros r E. rewrite P3 in E. discriminate.
  - intros p E. rewrite P4 in E. discriminate.
  - intros r z x E S W. destruct (HW _ E) as (y & Y1 & Y2). cbn [fst snd] in Y1. congruence.
Qed.
Ltac plain := unfold plain; cbn; sp; auto.
Ltac gp := eapply go_plain; eauto; try (plain; fail); try discriminate; try reflexivity; try exact Logic.I.
Lemma jobOk_goto c s i t cl r : jobOk c s cl r -> writes r t = false -> reads c r t = false -> jobOk c (goto s i t) cl r.
Proof. intros (A & B & C & D) W R. unfold jobOk. cbn [regs goto]. sp; auto; [now apply noT_goto|]. intros X Y. destruct (D X Y). split; auto. now apply noT_goto. Qed.

(** results of lookups *)
Definition resOk (c : cfg) (T : list event) (i : nat) (w : caller) (k : list N) (x : rres) : Prop :=
  match x with
  | ROk v la => during i (opOf w k) T (fun A => stored c k A = Some (v, la))
  | RMiss => during i (opOf w k) T (fun A => stored c k A = None)
  | RUB => False
  | _ => True
  end.
Lemma finish_ok c s T i w k x t0 s' e : InvX c s T i -> nth_error (thr s) i = Some t0 -> jobReg t0 = None -> wslot c t0 = None ->
  In (ECall i (opOf w k)) T -> resOk c T i w k x -> finish c s i w k x = (s', e) -> Inv c s' (T ++ e).
Proof.
  intros I H0 J0 W0 C R F. unfold finish in F.
  assert (HW0 : forall p, wslot c t0 = Some p -> exists x0, sl s (fst p) (snd p) = Some x0 /\ eW x0 = true) by (intros p E; congruence).
  destruct w.
  - injection F as <- <-. gp.
    apply good1. destruct x; cbn [toResult goodEv resOk opOf] in *; auto; try contradiction; exists k; auto.
  - destruct x; cbn [resOk opOf] in R.
    + injection F as <- <-. gp; [apply good0|].
      cbn [TInv opOf] in *. rewrite app_nil_r. split; auto. destruct R as (A & B & E1 & E2 & E3). exists A, B. sp; auto. exists la. exact E3.
    + injection F as <- <-. gp; apply good1; exact Logic.I.
    + injection F as <- <-. gp; apply good1; exact Logic.I.
    + destruct (preciseRemove c); injection F as <- <-.
      * gp; apply good1. exists k. right. exact R.
      * gp; [apply good0|]. cbn [TInv opOf] in *. rewrite app_nil_r. auto.
    + contradiction.
Qed.
Lemma again_ok c s T i w k n t0 s' e : InvX c s T i -> nth_error (thr s) i = Some t0 -> jobReg t0 = None -> wslot c t0 = None ->
  In (ECall i (opOf w k)) T -> again s i w k n = (s', e) -> Inv c s' (T ++ e).
Proof.
  intros I H0 J0 W0 C F. unfold again in F.
  assert (HW0 : forall p, wslot c t0 = Some p -> exists x0, sl s (fst p) (snd p) = Some x0 /\ eW x0 = true) by (intros p E; congruence).
  destruct n; injection F as <- <-.
  - gp; apply good1; exact Logic.I.
  - gp; [apply good0|]. cbn [TInv]. now rewrite app_nil_r.
Qed.
Lemma stored_holder c k T k' v la : holder c (tk c k) T = Some (k', v, la) -> stored c k T = if bytes_eqb k' k then Some (v, la) else None.
Proof. intro H. unfold stored. now rewrite H. Qed.
Lemma stored_none c k T : holder c (tk c k) T = None -> stored c k T = None.
Proof. intro H. unfold stored. now rewrite H. Qed.
Lemma safe_app a b : safe (a ++ b) -> safe a /\ safe b.
Proof. unfold safe. intro H. split; intros x X; apply H; apply in_or_app; auto. Qed.
Lemma safe_not x l : safe (x :: l) -> unsafe x = false.
Proof. intro H. apply H. now left. Qed.
Lemma eff_del c t k T e x : (e = EDel 0 k \/ (exists i, e = EDel i k) \/ (exists v b, e = EEvict k v b) \/ e = EDrop k) -> x = tk c k ->
  holder c t (T ++ [e]) = if x =? t then None else holder c t T.
Proof. intros H ->. rewrite holder_app. cbn [fold_left]. destruct H as [->|[(i & ->)|[(v & b & ->)| ->]]]; reflexivity. Qed.

Section Step.
Variable c : cfg.
Hypothesis O : okCfg c.

Lemma idx_slot s T t a h : Core c s T -> idx s t = Some (a, h) -> exists k v la r e sz, holder c t T = Some (k, v, la) /\
  r < nregs c /\ a = enc c r e /\ dec c a = (r, e) /\ sl s r e = Some (mkE sz k v la true) /\ sz <= decodeSizeHint h /\ tk c k = t /\ live s r /\ 0 < e /\ e <= cur (regs s r).
Proof.
  intros K E. pose proof (K.(C_idx _ _ _) t) as H. rewrite E in H. destruct (holder c t T) as [((k & v) & la)|]; [|contradiction].
  destruct H as (r & e & sz & H1 & H2 & H3 & H4 & H5 & H6). exists k, v, la, r, e, sz.
  destruct (K.(C_reg _ _ _) r) as (TL & CU & _). destruct (slot_facts c O _ _ _ _ TL H3) as (_ & F1 & F2 & F3 & F4).
  sp; auto. rewrite H2. apply dec_enc; auto. lia.
Qed.
Lemma alloc_goto s r sz k v la s1 i t : alloc c s r sz k v la = Some s1 -> alloc c (goto s i t) r sz k v la = Some (goto s1 i t).
Proof. unfold alloc. cbn [regs goto]. destruct (ph (regs s r)); try discriminate. destruct (_ && _); [|discriminate]. intro E. injection E as <-. reflexivity. Qed.
Lemma alloc_ph s r sz k v la s1 : alloc c s r sz k v la = Some s1 -> ph (regs s r) = POpen.
Proof. unfold alloc. destruct (ph (regs s r)); try discriminate. auto. Qed.
Lemma wslot_sl s T j t r e : TInv c s T j t -> wslot c t = Some (r, e) -> exists x, sl s r e = Some x.
Proof.
  intros I W. destruct t; cbn [wslot] in W; try discriminate; cbn [TInv] in I.
  - injection W as <- <-. destruct I as (_ & I & _). eauto.
  - destruct I as (_ & _ & _ & _ & _ & x & p & _ & P & _ & _ & S). rewrite P in W. injection W as <- <-. eauto.
Qed.
(** move thread i, without region so far, into a state that waits to fill a fresh slot *)
Lemma take s T i t0 t1 r sz k v la s1 : Inv c s T -> nth_error (thr s) i = Some t0 -> wslot c t0 = None ->
  (forall r', jobReg t1 = Some r' -> jobReg t0 = Some r') -> (forall r', writes r' t1 = true -> r' = r) ->
  (forall r', reads c r' t1 = false) -> (forall r', hard c r' t1 = false) ->
  alloc c s r sz k v la = Some s1 -> okEnt c (mkE sz k v la false) -> wslot c t1 = Some (r, cur (regs s r) + sz) ->
  InvX c (goto s1 i t1) T i /\ ph (regs s r) = POpen /\ r < nregs c /\ sl s1 r (cur (regs s r) + sz) = Some (mkE sz k v la false) /\ live s1 r /\
  (forall r', r' <> r -> regs s1 r' = regs s r').
Proof.
  intros (K & I) H0 W0 HJ HW HR HH AL OE WS. pose proof (alloc_ph _ _ _ _ _ _ _ AL) as PO.
  assert (NS : sl s r (cur (regs s r) + sz) = None).
  { destruct (sl s r (cur (regs s r) + sz)) as [y|] eqn:E; auto. destruct (K.(C_reg _ _ _) r) as (TL & _).
    destruct (slot_facts c O _ _ _ _ TL E) as (_ & _ & X & _). destruct (size_facts c _ O OE) as (_ & _ & P & _). cbn [eSz] in P. lia. }
  assert (X0 : InvX c (goto s i t1) T i).
  { eapply X_goto; eauto.
    - apply Inv_X. split; auto.
    - intros r' E. right. now rewrite (HW r' E).
    - intros r' E. rewrite HR in E. discriminate.
    - intros r' E. rewrite HH in E. discriminate.
    - intros p E. right. intros j t Hj Wt. rewrite WS in E. injection E as <-. destruct (wslot_sl s T j t _ _ (I j t Hj) Wt). congruence.
    - congruence. }
  destruct (X_alloc c (goto s i t1) T i t1 r sz k v la (goto s1 i t1) O X0) as (A1 & A2 & A3 & A4 & A5 & A6 & A7); auto.
  - eapply updl_same; eauto.
  - now apply alloc_goto.
  - sp; auto.
Qed.

Lemma keep_same (s : state) : {| regs := regs s; mem := mem s; idx := idx s; seqn := seqn s; thr := thr s |} = s.
Proof. destruct s. reflexivity. Qed.

(** ** insert *)
Lemma step_insert s T i t ch s' e : Inv c s T -> nth_error (thr s) i = Some t ->
  match t with IAlloc _ _ _ | IWrite _ _ _ _ _ _ | IIdx _ _ _ _ _ _ | IClose _ => True | _ => False end ->
  tstep c s i t ch = Some (s', e) -> safe e -> Inv c s' (T ++ e).
Proof.
  intros IV Ht K ST SF. pose proof IV as (KC & TI). pose proof (TI i t Ht) as Ti. destruct t; try contradiction; cbn [tstep TInv] in *.
  - (* IAlloc *)
    destruct (32 + lenN k + lenN v + algn c <=? U32) eqn:FT.
    2:{ exfalso. set (sz := serializedSize _ _ _) in ST. destruct (kMaxItemSize <? sz); [injection ST as <- <-; discriminate (SF EUB (or_introl eq_refl))|].
        destruct (cB ch) as [|[|]]; [destruct (alloc c s (cR ch) sz k v la); [|discriminate]| |]; injection ST as <- <-; discriminate (SF EUB (or_introl eq_refl)). }
    apply N.leb_le in FT. cbn [app] in ST.
    assert (DONE : forall x, goodEv c T (ERes i x) -> Inv c (goto s i TDone) (T ++ [ERes i x])).
    { intros x G. gp; [now apply Inv_X|now apply good1]. }
    set (sz := serializedSize (algn c) (lenN k) (lenN v)) in *. destruct (N.ltb_spec kMaxItemSize sz) as [MX|MX].
    { injection ST as <- <-. apply DONE. exact Logic.I. }
    destruct (cB ch) as [|[|]]; [|injection ST as <- <-; apply DONE; exact Logic.I..].
    destruct (alloc c s (cR ch) sz k v la) as [s1|] eqn:AL; [|discriminate]. injection ST as <- <-.
    assert (OE : okEnt c (mkE sz k v la false)) by (unfold okEnt, fits; cbn [eSz eK eV eLa]; sp; auto).
    destruct (take s T i (IAlloc k v la) (IWrite k v la (cR ch) (cur (regs s (cR ch))) sz) (cR ch) sz k v la s1) as (A1 & A2 & A3 & A4 & A5 & _); auto; try discriminate.
    { cbn. intros r' E. apply N.eqb_eq in E. auto. }
    rewrite app_nil_r. eapply X_Inv; [exact A1|cbn; eapply updl_same|]. 2:{ cbn [TInv]. sp; auto. }
    assert (TH : thr s1 = thr s). { unfold alloc in AL. destruct (ph _); try discriminate. destruct (_ && _); [|discriminate]. injection AL as <-. reflexivity. }
    rewrite TH. exact Ht.
  - (* IWrite *)
    injection ST as <- <-. destruct Ti as (A & B & C). rewrite app_nil_r.
    destruct (X_fill c s T i _ r off sz k v la O (Inv_X _ _ _ _ IV) Ht) as (F1 & F2 & F3 & F4 & F5); auto; try (cbn; apply N.eqb_refl).
    set (s1 := fill c s r off sz k v la) in *.
    assert (H1 : nth_error (thr s1) i = Some (IWrite k v la r off sz)) by exact Ht.
    eapply X_Inv; [|eapply updl_same; exact H1|].
    + eapply X_goto; eauto; cbn; try discriminate; auto.
      intros r' z x E. injection E as <- <-. rewrite F2. intros S W. injection S as <-. discriminate.
    + cbn [TInv]. sp; auto. unfold live. cbn [regs goto]. now rewrite F3.
  - (* IIdx *)
    destruct Ti as (A & B & C). cbv zeta in ST.
    destruct (KC.(C_reg _ _ _) r) as (TL & CU & _). destruct (slot_facts c O _ _ _ _ TL B) as (OE & E1 & E2 & E3 & E4).
    destruct (size_facts c _ O OE) as (DV & LS & PS & _). cbn [eSz] in *.
    assert (PUT : forall s0 T0, InvX c s0 T0 i -> thr s0 = thr s -> sl s0 = sl s -> regs s0 = regs s ->
      InvX c (setIdx s0 (tk c k) (Some (enc c r (off + sz), storedHint c (encodeSizeHint sz)))) (T0 ++ [EPut i k v la]) i).
    { intros s0 T0 I0 H1 H2 H3. eapply X_idx; eauto.
      - rewrite H1. exact Ht.
      - exists r, (off + sz), sz, k, v, la. rewrite holder_app. cbn [fold_left effect]. rewrite N.eqb_refl.
        sp; auto; [now rewrite H2| | |cbn; apply N.eqb_refl]; [|unfold live; now rewrite H3]. apply hint_enough; auto; [apply OE|lia].
      - intros t' NE. rewrite holder_app. cbn [fold_left effect]. destruct (N.eqb_spec (tk c k) t'); [congruence|reflexivity].
      - apply good1. exact Logic.I. }
    assert (FIN : forall s0 T0, InvX c s0 T0 i -> thr s0 = thr s -> Inv c (goto s0 i (IClose r)) T0).
    { intros s0 T0 I0 H1. assert (Ht0 : nth_error (thr s0) i = Some (IIdx k v la r off sz)) by (rewrite H1; exact Ht).
      eapply X_Inv; [|eapply updl_same; exact Ht0|exact Logic.I].
      eapply X_goto; eauto; cbn; try discriminate; auto. }
    destruct (cB ch) as [|b].
    { injection ST as <- <-. apply FIN; [|reflexivity]. apply PUT; auto. now apply Inv_X. }
    destruct (idx s (cR ch)) as [(a, h)|] eqn:E; [|discriminate]. destruct (idx s (tk c k)) eqn:E'; [discriminate|].
    destruct (displaces c) eqn:DC; [|discriminate]. injection ST as <- <-. apply FIN; [|reflexivity].
    change [EDispl (cR ch); EPut i k v la] with ([EDispl (cR ch)] ++ [EPut i k v la]). rewrite app_assoc.
    apply PUT; auto. eapply X_idx; eauto.
    + now apply Inv_X.
    + cbn. rewrite holder_app. cbn [fold_left effect]. now rewrite N.eqb_refl.
    + intros t' NE. rewrite holder_app. cbn [fold_left effect]. destruct (N.eqb_spec (cR ch) t'); [congruence|reflexivity].
    + apply good1. cbn [goodEv]. split; auto. destruct (idx_slot s T _ _ _ KC E) as (k' & v' & la' & r' & z' & sz' & H1 & _). congruence.
  - injection ST as <- <-. gp; [now apply Inv_X|now apply good1].
Qed.

(** ** lookup *)
Lemma step_lookup s T i t ch s' e : Inv c s T -> nth_error (thr s) i = Some t ->
  match t with LSeq _ _ _ | LIdx _ _ _ _ | LOpen _ _ _ _ _ _ | LChk _ _ _ _ _ _ | LRead _ _ _ _ _ | LRm _ _ _ _ => True | _ => False end ->
  tstep c s i t ch = Some (s', e) -> safe e -> Inv c s' (T ++ e).
Proof.
  intros IV Ht K ST SF. pose proof IV as (KC & TI). pose proof (TI i t Ht) as Ti. pose proof (Inv_X c s T i IV) as IX.
  destruct t; try contradiction; cbn [tstep TInv] in *.
  - injection ST as <- <-. gp; [apply good0|]. cbn [TInv]. rewrite app_nil_r. split; auto. cbn. lia.
  - destruct Ti as (C & Q). destruct (idx s (tk c k)) as [(code & hint)|] eqn:E.
    + injection ST as <- <-. gp; [apply good0|]. cbn [TInv]. rewrite app_nil_r. sp; auto. right.
      destruct (idx_slot s T _ _ _ KC E) as (k' & v & la & r & z & sz & H1 & H2 & H3 & H4 & H5 & H6 & H7 & H8 & _).
      unfold lin. rewrite H4. cbn [fst snd]. split; [|apply H8]. exists T, [], k', v, la, sz. sp; auto. now rewrite app_nil_r.
    + destruct (finish c s i w k RMiss) as (s2, e2) eqn:F. injection ST as <- <-. eapply finish_ok; eauto.
      cbn [resOk]. apply during_now; auto. apply stored_none. pose proof (KC.(C_idx _ _ _) (tk c k)) as H. rewrite E in H. destruct (holder c (tk c k) T); [contradiction|auto].
  - destruct Ti as (C & Q & L). destruct (blk (regs s (fst (dec c code)))) eqn:B.
    + injection ST as ST. eapply again_ok; eauto.
    + injection ST as <- <-. rewrite app_nil_r. eapply X_Inv; [|eapply updl_same; exact Ht|].
      * eapply X_goto; eauto; cbn; try discriminate; auto. intros r E. apply N.eqb_eq in E. subst. auto.
      * cbn [TInv]. sp; auto.
  - destruct Ti as (C & Q & L). destruct (N.eqb_spec (seqn s) q) as [<-|NQ].
    + destruct L as [L|(L & P)]; [lia|]. remember (fst (dec c code)) as rr eqn:ER. injection ST as <- <-.
      assert (LV : live s rr).
      { split; auto. intro X. rewrite X in SF. discriminate (SF ELate (or_introl eq_refl)). }
      assert (EE : match ph (regs s rr) with PDet => [ELate] | _ => [] end = []) by (destruct LV; destruct (ph _); auto; congruence).
      rewrite EE, app_nil_r. eapply X_Inv; [|eapply updl_same; exact Ht|].
      * eapply X_goto; eauto; cbn; try discriminate; auto. intros r E. apply N.eqb_eq in E. right. rewrite <- E, <- ER. exact LV.
      * exact L.
    + injection ST as ST. eapply again_ok; eauto.
  - (* LRead *)
    destruct (dec c code) as (r & off) eqn:D. pose proof Ti as Ti0. unfold lin in Ti. rewrite D in Ti. cbn [fst snd] in Ti.
    destruct Ti as (A & B & k' & v & la & sz & ET & CA & HO & S & L).
    assert (CT : In (ECall i (opOf w k)) T) by (rewrite ET; apply in_or_app; auto).
    destruct (KC.(C_reg _ _ _) r) as (TL & CU & _ & HH & _). destruct (slot_facts c O _ _ _ _ TL S) as (OE & E1 & E2 & E3 & E4).
    pose proof (HH _ _ S eq_refl) as HD.
    assert (RM : forall x, x = RDev \/ x = RChk -> Inv c (goto s i (LRm w k code x)) (T ++ [])).
    { intros x X. rewrite app_nil_r. eapply X_Inv; [|eapply updl_same; exact Ht|].
      - eapply X_goto; eauto; cbn; try discriminate; auto.
      - cbn [TInv]. split; auto. destruct X as [-> | ->]; exact Logic.I. }
    destruct (readEntry c (devRead s r (cF1 ch)) (devRead s r (cF2 ch)) off (decodeSizeHint hint) k) eqn:RE.
    + (* ROk *)
      destruct (finish c s i w k (ROk v0 la0)) as (s2, e2) eqn:F. injection ST as <- <-.
      destruct (isFaulty (cF1 ch) || isFaulty (cF2 ch)) eqn:FT; [discriminate (SF EUndetected (or_introl eq_refl))|].
      cbn [app]. eapply finish_ok; eauto. cbn [resOk]. exists A, B. sp; auto.
      apply orb_false_iff in FT. destruct FT as (FT & _). destruct (cF1 ch) as [[f|]|]; try discriminate FT; cbn [devRead] in RE; [discriminate RE|].
      erewrite read_held in RE by eauto. cbn [eK eV eLa] in RE. rewrite (stored_holder _ _ _ _ _ _ HO). destruct (bytes_eqb k' k); [|discriminate]. injection RE as <- <-. reflexivity.
    + (* RDev *) injection ST as <- <-. apply RM; auto.
    + (* RChk *) destruct again.
      * injection ST as <- <-. apply RM; auto.
      * injection ST as <- <-. rewrite app_nil_r. eapply X_Inv; [|eapply updl_same; exact Ht|].
        -- eapply X_goto; eauto; cbn; try discriminate; auto.
        -- exact Ti0.
    + (* RMiss *)
      assert (RS : isFaulty (cF1 ch) || isFaulty (cF2 ch) = false -> during i (opOf w k) T (fun A => stored c k A = None)).
      { intro FT. exists A, B. sp; auto. apply orb_false_iff in FT. destruct FT as (FT & _). destruct (cF1 ch) as [[f|]|]; try discriminate FT; cbn [devRead] in RE; [discriminate RE|].
        erewrite read_held in RE by eauto. cbn [eK eV eLa] in RE. rewrite (stored_holder _ _ _ _ _ _ HO). destruct (bytes_eqb k' k); [discriminate|reflexivity]. }
      destruct again.
      * injection ST as <- <-. destruct (isFaulty (cF1 ch) || isFaulty (cF2 ch)) eqn:FT; [discriminate (SF EUndetected (or_introl eq_refl))|].
        rewrite app_nil_r. eapply X_Inv; [|eapply updl_same; exact Ht|].
        -- eapply X_goto; eauto; cbn; try discriminate; auto.
        -- cbn [TInv]. split; auto.
      * destruct (finish c s i w k RMiss) as (s2, e2) eqn:F. injection ST as <- <-.
        destruct (isFaulty (cF1 ch) || isFaulty (cF2 ch)) eqn:FT; [discriminate (SF EUndetected (or_introl eq_refl))|].
        cbn [app]. eapply finish_ok; eauto. cbn [resOk]. auto.
    + injection ST as <- <-. discriminate (SF EUB (or_introl eq_refl)).
  - (* LRm *)
    destruct Ti as (C & R). unfold matches in ST. destruct (idx s (tk c k)) as [(a & h)|] eqn:E.
    + destruct (N.eqb_spec a code) as [->|NE].
      * destruct (finish c (setIdx s (tk c k) None) i w k res) as (s2, e2) eqn:F. injection ST as <- <-.
        change (EDrop k :: e2) with ([EDrop k] ++ e2). rewrite app_assoc. eapply (finish_ok c (setIdx s (tk c k) None)); [|exact Ht|reflexivity|reflexivity| | |exact F].
        -- destruct (idx_slot s T _ _ _ KC E) as (k' & v & la & r & z & sz & H1 & _).
           eapply X_idx; eauto.
           ++ rewrite holder_app. cbn [fold_left effect]. now rewrite N.eqb_refl.
           ++ intros t' NE. rewrite holder_app. cbn [fold_left effect]. destruct (N.eqb_spec (tk c k) t'); [congruence|reflexivity].
           ++ apply good1. cbn [goodEv]. congruence.
        -- apply in_or_app; auto.
        -- destruct res; cbn [resOk]; auto; try contradiction. now apply during_app.
      * destruct (finish c s i w k res) as (s2, e2) eqn:F. injection ST as <- <-. cbn [app]. eapply finish_ok; eauto. destruct res; cbn [resOk]; auto; contradiction.
    + destruct (finish c s i w k res) as (s2, e2) eqn:F. injection ST as <- <-. cbn [app]. eapply finish_ok; eauto. destruct res; cbn [resOk]; auto; contradiction.
Qed.
(** ** remove *)
Lemma step_remove s T i k ov ch s' e : Inv c s T -> nth_error (thr s) i = Some (RRem k ov) ->
  tstep c s i (RRem k ov) ch = Some (s', e) -> Inv c s' (T ++ e).
Proof.
  intros IV Ht ST. pose proof IV as (KC & TI). pose proof (TI i _ Ht) as Ti. pose proof (Inv_X c s T i IV) as IX.
  cbn [tstep TInv] in *. destruct Ti as (C & R). injection ST as <- <-.
  set (found := match idx s (tk c k) with Some _ => true | None => false end).
  set (d := match ov with Some v => if found && destructor c then [EDtorRem k v] else [] | None => [] end).
  assert (HF : forall t a, fold_left (effect c t) (d ++ [ERes i (if found then Removed else NotFound)]) a = a).
  { intros t a. rewrite fold_left_app. cbn [fold_left effect]. unfold d. destruct ov; [destruct (found && destructor c)|]; reflexivity. }
  eapply X_Inv; [|eapply updl_same; exact Ht|exact Logic.I].
  assert (X1 : InvX c (setIdx s (tk c k) None) (T ++ EDel i k :: d ++ [ERes i (if found then Removed else NotFound)]) i).
  { eapply X_idx; eauto.
    - rewrite holder_app. cbn [fold_left effect]. rewrite N.eqb_refl. apply HF.
    - intros t' NE. rewrite holder_app. cbn [fold_left effect]. destruct (N.eqb_spec (tk c k) t'); [congruence|apply HF].
    - assert (G1 : goodEv c T (ERes i (if found then Removed else NotFound)) /\ forall x, goodEv c (T ++ x) (ERes i (if found then Removed else NotFound))).
      { assert (G : during i (ORemove k) T (fun A => if found then holder c (tk c k) A <> None else stored c k A = None)).
        { apply during_now; auto. unfold found. pose proof (KC.(C_idx _ _ _) (tk c k)) as H. destruct (idx s (tk c k)) as [(a & h)|].
          - destruct (holder c (tk c k) T); [discriminate|contradiction].
          - apply stored_none. destruct (holder c (tk c k) T); [contradiction|auto]. }
        destruct found; cbn [goodEv]; split; [exists k; auto|intro x; exists k; now apply during_app|exists k; auto|intro x; exists k; right; now apply during_app]. }
      destruct G1 as (_ & G1).
      intros e1 y e2 E. destruct e1 as [|a e1]; cbn [app] in E; injection E as EA E; [subst y; exact Logic.I|subst a].
      unfold d in E. destruct ov as [v|]; [destruct (found && destructor c)|]; cbn [app] in E.
      + destruct e1 as [|b e1]; cbn [app] in E; injection E as EB E.
        * subst y. cbn [goodEv]. exists i. now apply during_app.
        * subst b. destruct e1 as [|b e1]; [injection E as <- _; apply G1|destruct e1; discriminate].
      + destruct e1 as [|b e1]; [injection E as <- _; apply G1|destruct e1; discriminate].
      + destruct e1 as [|b e1]; [injection E as <- _; apply G1|destruct e1; discriminate]. }
  eapply X_goto; eauto; cbn; try discriminate; auto.
Qed.
End Step.
