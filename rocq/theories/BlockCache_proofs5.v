(** Reclaim and cleanup keep the invariant. *)
From Coq Require Import List NArith Bool Lia.
From Verif Require Import Bytes AddrCode_model AddrCode_spec AddrCode_proofs AddrCode_props BlockCache_model BlockCache_spec BlockCache_proofs BlockCache_proofs2 BlockCache_proofs3 BlockCache_proofs4.
Import ListNotations.
Local Open Scope N_scope.
Ltac Zify.zify_post_hook ::= idtac.

Lemma go0 c s T i t0 t1 : InvX c s T i -> nth_error (thr s) i = Some t0 -> plain c t1 ->
  (forall r, jobReg t1 = Some r -> jobReg t0 = Some r) -> (forall p, wslot c t0 = Some p -> exists x, sl s (fst p) (snd p) = Some x /\ eW x = true) ->
  TInv c (goto s i t1) T i t1 -> Inv c (goto s i t1) T.
Proof. intros. rewrite <- (app_nil_r T). eapply go_plain; eauto; [apply good0|now rewrite app_nil_r]. Qed.
Lemma rdl_ext' f g o n : (forall x, f x = g x) -> rdl f o n = rdl g o n.
Proof. intro H. apply rdl_ext. auto. Qed.
Lemma parse_ext c f g off : (forall x, f x = g x) -> parseAt c f off = parseAt c g off.
Proof.
  intro H. unfold parseAt. cbv zeta. rewrite (rdl_ext' f g (off - 32) 32 H).
  set (db := rdl g (off - 32) 32). rewrite (rdl_ext' f g (off - 32 - dKs db) (dKs db) H), (rdl_ext' f g _ (dVs db) H). reflexivity.
Qed.

Section Jobs.
Variable c : cfg.
Hypothesis O : okCfg c.

Lemma written s T r e x : Core c s T -> noW s r -> sl s r e = Some x -> eW x = true.
Proof.
  intros K W S. destruct (eW x) eqn:E; auto. exfalso. destruct (K.(C_own _ _ _) r e x S E) as (j & t & Hj & Wt).
  assert (X : writes r t = true); [|rewrite (W j t Hj) in X; discriminate].
  destruct t; cbn [wslot] in Wt; try discriminate.
  - injection Wt as -> _. cbn. apply N.eqb_refl.
  - destruct (parseAt c buf off); [|discriminate]. injection Wt as -> _. cbn. apply N.eqb_refl.
Qed.
Lemma bnd_cur s T r : Core c s T -> bnd c s r (cur (regs s r)).
Proof.
  intros K t a h e E D. destruct (idx_slot c O s T t a h K E) as (k & v & la & r' & e' & sz & _ & _ & _ & D' & S & _ & _ & _ & P & L).
  rewrite D in D'. injection D' as -> ->. exact L.
Qed.
Lemma slot_dec s T r off x : Core c s T -> r < nregs c -> sl s r off = Some x -> dec c (enc c r off) = (r, off).
Proof.
  intros K R S. destruct (K.(C_reg _ _ _) r) as (TL & CU & _). destruct (slot_facts c O _ _ _ _ TL S) as (_ & F1 & F2 & F3 & F4). apply dec_enc; auto. lia.
Qed.
(** the entry the index has at (r,off) is the one in the slot *)
Lemma idx_here s T r off x t a h : Core c s T -> r < nregs c -> sl s r off = Some x -> idx s t = Some (a, h) ->
  (a = enc c r off <-> dec c a = (r, off)) /\ (dec c a = (r, off) -> eW x = true /\ t = tk c (eK x) /\ holder c t T = Some (eK x, eV x, eLa x) /\ eSz x <= decodeSizeHint h).
Proof.
  intros K R S E. destruct (idx_slot c O s T t a h K E) as (k & v & la & r' & e' & sz & H1 & H2 & H3 & D' & S' & H6 & H7 & H8 & P & L).
  split.
  - split; [intros ->; eapply slot_dec; eauto|]. rewrite D'. intros [= -> ->]. exact H3.
  - rewrite D'. intros [= -> ->]. rewrite S in S'. injection S' as ->. cbn [eW eK eV eLa eSz]. sp; auto.
Qed.
Lemma bnd_step s T r off x : Core c s T -> r < nregs c -> bnd c s r off -> sl s r off = Some x ->
  (forall a h, idx s (tk c (eK x)) = Some (a, h) -> dec c a <> (r, off)) -> bnd c s r (off - eSz x).
Proof.
  intros K R B S NH t a h e E D. pose proof (B t a h e E D) as L.
  destruct (N.eq_dec e off) as [->|NE].
  - exfalso. destruct (idx_here s T r off x t a h K R S E) as (_ & X). destruct (X D) as (_ & -> & _). eapply NH; eauto.
  - destruct (idx_slot c O s T t a h K E) as (k & v & la & r' & e' & sz & H1 & H2 & H3 & D' & S' & _). rewrite D in D'. injection D' as <- <-.
    destruct (K.(C_reg _ _ _) r) as (TL & _). eapply (slot_disj c O); eauto. lia.
Qed.
Lemma evict_ok s T i r off x p dt s1 e t0 : InvX c s T i -> nth_error (thr s) i = Some t0 -> r < nregs c -> bnd c s r off -> sl s r off = Some x -> hd c p x ->
  (dt && destructor c = true -> matches s (tk c (pK p)) (enc c r off) = true -> pV p = eV x) ->
  evictAt c s r off p dt = (s1, e) ->
  InvX c s1 (T ++ e) i /\ regs s1 = regs s /\ thr s1 = thr s /\ mem s1 = mem s /\ bnd c s1 r (off - eSz x).
Proof.
  intros IX Ht R B S (W & H1 & H2 & H3 & H4) HV E. pose proof IX as (K & _). unfold evictAt in E. rewrite H2 in *.
  destruct (matches s (tk c (eK x)) (enc c r off)) eqn:M; injection E as <- <-.
  - unfold matches in M. destruct (idx s (tk c (eK x))) as [(a & h)|] eqn:IE; [|discriminate]. apply N.eqb_eq in M.
    destruct (idx_here s T r off x _ a h K R S IE) as (Q1 & Q2). apply Q1 in M. destruct (Q2 M) as (_ & _ & HO & _).
    assert (X1 : InvX c (setIdx s (tk c (eK x)) None) (T ++ [EEvict (eK x) (pV p) (dt && destructor c)]) i).
    { eapply X_idx; eauto.
      - rewrite holder_app. cbn [fold_left effect]. now rewrite N.eqb_refl.
      - intros t' NE. rewrite holder_app. cbn [fold_left effect]. destruct (N.eqb_spec (tk c (eK x)) t'); [congruence|reflexivity].
      - apply good1. cbn [goodEv]. exists (eV x), (eLa x). split; auto. }
    sp; auto. destruct X1 as (K1 & _). eapply bnd_step; eauto.
    + intros t a' h' e' E'. cbn [idx setIdx] in E'. unfold fupd in E'. destruct (t =? tk c (eK x)); [discriminate|]. eapply B; eauto.
    + intros a' h' E'. cbn [idx setIdx] in E'. rewrite fupd_same in E'. discriminate.
  - rewrite app_nil_r. sp; auto. eapply bnd_step; eauto. intros a h IE. unfold matches in M. rewrite IE in M. apply N.eqb_neq in M.
    intro D. apply M. eapply idx_here; eauto.
Qed.
Lemma same_hd s T r off x p buf : Core c s T -> noW s r -> sl s r off = Some x -> sameHead s c r off buf p = true -> hd c p x.
Proof.
  intros K W S H. pose proof (written s T r off x K W S) as WX. destruct (K.(C_reg _ _ _) r) as (TL & CU & _ & HH & _).
  destruct (slot_facts c O _ _ _ _ TL S) as (OE & F1 & _). unfold sameHead in H.
  rewrite (parse_held c (mem s r) off x O OE (HH off x S WX) F1) in H. cbn [pSz pK pV pCs] in H.
  apply andb_true_iff in H. destruct H as (H & H4). apply andb_true_iff in H. destruct H as (H & H3). apply andb_true_iff in H. destruct H as (H1 & H2).
  apply N.eqb_eq in H1, H3, H4. apply bytes_eqb_spec in H2. unfold hd. auto.
Qed.
Lemma same_value s T r off x p : Core c s T -> noW s r -> sl s r off = Some x -> sameValue s c r off p = true -> pV p = eV x.
Proof.
  intros K W S H. pose proof (written s T r off x K W S) as WX. destruct (K.(C_reg _ _ _) r) as (TL & CU & _ & HH & _).
  destruct (slot_facts c O _ _ _ _ TL S) as (OE & F1 & _). unfold sameValue in H.
  rewrite (parse_held c (mem s r) off x O OE (HH off x S WX) F1) in H. now apply bytes_eqb_spec in H.
Qed.
Lemma next_slot s T r off x : Core c s T -> noW s r -> sl s r off = Some x -> off - eSz x = 0 \/ exists y, sl s r (off - eSz x) = Some y /\ eW y = true.
Proof.
  intros K W S. destruct (K.(C_reg _ _ _) r) as (TL & _). destruct (slot_next c O _ _ _ _ TL S) as [|(y & Y)]; auto. right. exists y. split; auto. eapply written; eauto.
Qed.
Lemma only_job s T i t r : Core c s T -> nth_error (thr s) i = Some t -> jobReg t = Some r ->
  forall j u, j <> i -> nth_error (thr s) j = Some u -> jobReg u <> Some r.
Proof. intros K Ht J j u NJ Hj E. apply NJ. eapply K.(C_job _ _ _); eauto. Qed.

Lemma walk_hd s T i cl r off buf p : Inv c s T -> nth_error (thr s) i = Some (JWalk cl r off buf) -> off <> 0 -> parseAt c buf off = Some p ->
  sameHead s c r off buf p = true -> exists x, sl s r off = Some x /\ hd c p x /\ (cl = true -> pV p = eV x).
Proof.
  intros (K & TI) Ht NZ P SH. pose proof (TI i _ Ht) as (J & BM & B & [->|(x & S & W)]); [congruence|]. exists x. split; auto.
  destruct J as (_ & _ & NW & _). split; [eapply same_hd; eauto|]. intro C. rewrite (parse_ext c buf (mem s r) off (BM C)) in P.
  destruct (K.(C_reg _ _ _) r) as (TL & CU & _ & HH & _). destruct (slot_facts c O _ _ _ _ TL S) as (OE & F1 & _).
  rewrite (parse_held c (mem s r) off x O OE (HH off x S W) F1) in P. injection P as <-. reflexivity.
Qed.
Lemma goto_jobOk s s1 i t cl r : regs s1 = regs s -> thr s1 = thr s -> jobOk c s cl r -> writes r t = false -> reads c r t = false -> jobOk c (goto s1 i t) cl r.
Proof.
  intros R T J W Rd. apply jobOk_goto; auto. destruct J as (A & B & C & D). unfold jobOk, noR, noW, noT. rewrite R, T. sp; auto.
Qed.
Lemma sl_regs s s1 r e : regs s1 = regs s -> sl s1 r e = sl s r e.
Proof. intro E. unfold sl. now rewrite E. Qed.

Ltac fin := try (plain; fail); try (cbn; auto; fail); try (cbn; discriminate).

Lemma step_walk s T i cl r off buf ch s' e : Inv c s T -> nth_error (thr s) i = Some (JWalk cl r off buf) ->
  tstep c s i (JWalk cl r off buf) ch = Some (s', e) -> safe e -> Inv c s' (T ++ e).
Proof.
  intros IV Ht ST SF. pose proof IV as (K & TI). pose proof (TI i _ Ht) as Ti. pose proof (Inv_X c s T i IV) as IX. cbn [tstep TInv] in *.
  destruct Ti as (J & BM & B & SL). pose proof J as (J1 & J2 & J3 & J4).
  destruct (N.eqb_spec off 0) as [->|NZ].
  - injection ST as <- <-. rewrite app_nil_r. unfold walkEnd. destruct cl; eapply go0; eauto; fin.
    + cbn [TInv]. split; auto. apply jobOk_goto; auto.
    + cbn [TInv]. sp; auto; try discriminate; [apply noT_goto; auto|]. intros X Y. destruct (J4 X Y). split; auto. apply noT_goto; auto.
  - destruct (parseAt c buf off) as [p|] eqn:P; [|injection ST as <- <-; discriminate (SF EBadReclaim (or_introl eq_refl))].
    destruct (sameHead s c r off buf p) eqn:SH.
    2:{ exfalso. destruct cl.
        - destruct (evictAt c s r off p true). injection ST as <- <-. discriminate (SF EBadReclaim (or_introl eq_refl)).
        - destruct (match idx s (tk c (pK p)) with Some (a, _) => _ | None => false end); injection ST as <- <-; discriminate (SF EBadReclaim (or_introl eq_refl)). }
    destruct (walk_hd s T i cl r off buf p IV Ht NZ P SH) as (x & S & HD & HV).
    destruct cl.
    + destruct (evictAt c s r off p true) as (s1, e1) eqn:EV. injection ST as <- <-.
      destruct (evict_ok s T i r off x p true s1 e1 _ IX Ht J2 B S HD (fun _ _ => HV eq_refl) EV) as (X1 & R1 & T1 & M1 & B1).
      assert (SZ : pSz p = eSz x) by apply HD. rewrite SZ.
      eapply (go0 c s1 (T ++ e1) i (JWalk true r off buf)); [exact X1|rewrite T1; exact Ht|..]; fin. cbn [TInv]. sp; auto.
      * eapply goto_jobOk; eauto.
      * intros _ y. cbn [mem goto]. rewrite M1. auto.
      * destruct (next_slot s T r off x K J3 S) as [|(y & Y)]; auto. right. exists y. rewrite <- (sl_regs s s1) in Y by auto. exact Y.
    + set (here := match idx s (tk c (pK p)) with Some (a, _) => (fst (dec c a) =? r) && (snd (dec c a) =? off) | None => false end) in ST.
      destruct here eqn:HE; injection ST as <- <-; rewrite app_nil_r.
      * eapply go0; eauto; fin. cbn [TInv]. sp; auto; [apply jobOk_goto; auto|]. exists x, p. auto.
      * assert (SZ : pSz p = eSz x) by apply HD. rewrite SZ.
        eapply go0; eauto; fin. cbn [TInv]. sp; auto; try discriminate; [apply jobOk_goto; auto| |].
        -- assert (B2 : bnd c s r (off - eSz x)); [|exact B2]. eapply bnd_step; eauto. intros a h IE D. unfold here in HE.
           destruct HD as (_ & _ & HK & _). rewrite HK, IE, D in HE. cbn [fst snd] in HE. rewrite !N.eqb_refl in HE. discriminate.
        -- exact (next_slot s T r off x K J3 S).
Qed.

Lemma step_item s T i t ch s' e : Inv c s T -> nth_error (thr s) i = Some t ->
  match t with JDec _ _ _ | JRm _ _ _ _ | JWr _ _ _ _ _ | JRep _ _ _ _ _ | JRmC _ _ _ _ | JCl _ _ _ _ => True | _ => False end ->
  tstep c s i t ch = Some (s', e) -> safe e -> Inv c s' (T ++ e).
Proof.
  intros IV Ht KD ST SF. pose proof IV as (K & TI). pose proof (TI i t Ht) as Ti. pose proof (Inv_X c s T i IV) as IX.
  destruct t; try contradiction; cbn [tstep TInv] in *.
  - (* JDec *)
    destruct Ti as (J & B & x & p & S & P & HD). pose proof J as (J1 & J2 & J3 & J4). rewrite P in ST.
    assert (RM : forall dt, Inv c (goto s i (JRm dt r off buf)) (T ++ [])).
    { intro dt. rewrite app_nil_r. eapply go0; eauto; fin. cbn [TInv]. sp; auto; [apply jobOk_goto; auto|]. exists x, p. auto. }
    destruct (cB ch) as [|[|[|[|n]]]].
    + injection ST as <- <-. apply RM.
    + injection ST as <- <-. discriminate (SF EThrow (or_introl eq_refl)).
    + destruct (checksumData c && negb (pCs p =? checksum c (pV p))); [|discriminate]. injection ST as <- <-. apply RM.
    + injection ST as <- <-. apply RM.
    + destruct (checksumData c && negb (pCs p =? checksum c (pV p))); [discriminate|].
      destruct (alloc c s (cR ch) (serializedSize (algn c) (lenN (pK p)) (lenN (pV p))) (pK p) (pV p) 0) as [s1|] eqn:AL; [|discriminate].
      injection ST as <- <-. destruct (sameValue s c r off p) eqn:SV; [|discriminate (SF EUndetected (or_introl eq_refl))].
      pose proof (same_value s T r off x p K J3 S SV) as VE. rewrite app_nil_r.
      destruct (K.(C_reg _ _ _) r) as (TL & _). destruct (slot_facts c O _ _ _ _ TL S) as (OE & _).
      assert (OE2 : okEnt c (mkE (reSize c p) (pK p) (pV p) 0 false)).
      { destruct OE as (E1 & E2 & E3 & E4). destruct HD as (_ & _ & HK & _). unfold okEnt, reSize. cbn [eSz eK eV eLa]. rewrite HK, VE. sp; auto; [now rewrite <- E2|now vm_compute]. }
      assert (NR : cR ch <> r) by (intros E; apply alloc_ph in AL; rewrite E in AL; congruence).
      destruct (take c O s T i _ (JWr r off buf (cR ch) (cur (regs s (cR ch)))) (cR ch) (reSize c p) (pK p) (pV p) 0 s1 IV Ht) as (A1 & A2 & A3 & A4 & A5 & A6); auto; fin.
      { cbn. intros r' E. apply N.eqb_eq in E. auto. }
      { cbn. now rewrite P. }
      assert (TH : thr s1 = thr s). { unfold alloc in AL. destruct (ph _); try discriminate. destruct (_ && _); [|discriminate]. injection AL as <-. reflexivity. }
      assert (IE : idx s1 = idx s). { unfold alloc in AL. destruct (ph _); try discriminate. destruct (_ && _); [|discriminate]. injection AL as <-. reflexivity. }
      eapply X_Inv; [exact A1|cbn; eapply updl_same; rewrite TH; exact Ht|]. cbn [TInv]. sp; auto.
      * apply jobOk_goto; [|cbn; now apply N.eqb_neq|reflexivity]. unfold jobOk, noR, noW, noT. rewrite A6, TH by auto. sp; auto.
      * unfold bnd. cbn [idx goto]. rewrite IE. exact B.
      * exists x, p. sp; auto; [|exact A4..]. unfold sl. cbn [regs goto]. rewrite A6 by auto. exact S.
  - (* JRm *)
    destruct Ti as (J & B & x & p & S & P & HD). pose proof J as (J1 & J2 & J3 & J4). rewrite P in ST.
    destruct (evictAt c s r off p dt) as (s1, e1) eqn:EV. injection ST as <- <-.
    assert (HV : dt && destructor c = true -> matches s (tk c (pK p)) (enc c r off) = true -> pV p = eV x).
    { intros X Y. eapply same_value; eauto. destruct (sameValue s c r off p) eqn:SV; auto. exfalso. rewrite X, Y in SF. discriminate (SF EUndetected (or_introl eq_refl)). }
    assert (EE : (if dt && destructor c && matches s (tk c (pK p)) (enc c r off) && negb (sameValue s c r off p) then [EUndetected] else []) = []).
    { destruct (dt && destructor c && matches s (tk c (pK p)) (enc c r off) && negb (sameValue s c r off p)) eqn:X; auto. exfalso. discriminate (SF EUndetected (or_introl eq_refl)). }
    rewrite EE in *. cbn [app] in *.
    destruct (evict_ok s T i r off x p dt s1 e1 _ IX Ht J2 B S HD HV EV) as (X1 & R1 & T1 & M1 & B1).
    assert (SZ : pSz p = eSz x) by apply HD. rewrite SZ.
    eapply (go0 c s1 (T ++ e1) i (JRm dt r off buf)); [exact X1|rewrite T1; exact Ht|..]; fin. cbn [TInv]. sp; auto; try discriminate.
    * eapply goto_jobOk; eauto.
    * destruct (next_slot s T r off x K J3 S) as [|(y & Y)]; auto. right. exists y. rewrite <- (sl_regs s s1) in Y by auto. exact Y.
  - (* JWr *)
    destruct Ti as (J & B & NR & R2 & LV & x & p & S & P & HD & VE & S2). pose proof J as (J1 & J2 & J3 & J4). rewrite P in ST. injection ST as <- <-. rewrite app_nil_r.
    fold (reSize c p).
    destruct (X_fill c s T i _ r2 off2 (reSize c p) (pK p) (pV p) 0 O IX Ht) as (F1 & F2 & F3 & F4 & F5); auto; [cbn; now rewrite P|cbn; apply N.eqb_refl|].
    set (s1 := fill c s r2 off2 (reSize c p) (pK p) (pV p) 0) in *.
    eapply X_Inv; [|eapply updl_same; exact Ht|].
    + eapply X_goto; eauto; cbn; try discriminate; auto. rewrite P. intros r' z y E. injection E as <- <-. rewrite F2. intros Q W. injection Q as <-. discriminate.
    + cbn [TInv]. sp; auto.
      * unfold jobOk. cbn [regs goto]. rewrite F3, F4. sp; auto; [apply noT_goto; [exact J3|cbn; now apply N.eqb_neq]|]. intros X Y. destruct (J4 X Y). split; auto. apply noT_goto; auto.
      * unfold live. cbn [regs goto]. now rewrite F3.
      * exists x, p. sp; auto. apply F5; auto. congruence.
  - (* JRep *)
    destruct Ti as (J & B & NR & R2 & LV & x & p & S & P & HD & VE & S2). pose proof J as (J1 & J2 & J3 & J4). rewrite P in ST. fold (reSize c p) in ST.
    pose proof HD as (HW & HZ & HK & HL & HC).
    assert (NO : Inv c (goto s i (JRmC r off buf r2)) (T ++ [])).
    { rewrite app_nil_r. eapply X_Inv; [|eapply updl_same; exact Ht|].
      - eapply X_goto; eauto; cbn; try discriminate; auto.
      - cbn [TInv]. sp; auto; [apply jobOk_goto; auto; cbn; now apply N.eqb_neq|]. exists x, p. auto. }
    destruct (idx s (tk c (pK p))) as [(a & h)|] eqn:IE; [|injection ST as <- <-; exact NO].
    destruct (N.eqb_spec a (enc c r off)) as [EA|NE]; [|injection ST as <- <-; exact NO]. injection ST as <- <-. clear NO.
    destruct (idx_here s T r off x _ a h K J2 S IE) as (Q1 & Q2). apply Q1 in EA. destruct (Q2 EA) as (_ & TK & HO & HH).
    destruct (K.(C_reg _ _ _) r) as (TL & _). destruct (slot_facts c O _ _ _ _ TL S) as (OE & _).
    assert (SZ : reSize c p = eSz x) by (destruct OE as (_ & E2 & _); unfold reSize; now rewrite HK, VE).
    assert (X1 : InvX c (setIdx s (tk c (pK p)) (Some (enc c r2 (off2 + reSize c p), h))) (T ++ [EReins (pK p)]) i).
    { eapply X_idx; eauto.
      - exists r2, (off2 + reSize c p), (reSize c p), (pK p), (pV p), 0. rewrite holder_app. cbn [fold_left effect]. rewrite N.eqb_refl, HO.
        sp; auto; [now rewrite HK, VE|now rewrite SZ|cbn; apply N.eqb_refl].
      - intros t' NE. rewrite holder_app. cbn [fold_left effect]. destruct (N.eqb_spec (tk c (pK p)) t'); [congruence|reflexivity].
      - apply good1. cbn [goodEv]. exists (eV x), (eLa x). now rewrite HO, HK. }
    eapply X_Inv; [|eapply updl_same; exact Ht|].
    + eapply X_goto; eauto; cbn; try discriminate; auto.
    + cbn [TInv]. sp; auto; [eapply goto_jobOk with (s := s); eauto; cbn; now apply N.eqb_neq|]. exists x, p. sp; auto.
      assert (B2 : bnd c (setIdx s (tk c (pK p)) (Some (enc c r2 (off2 + reSize c p), h))) r (off - eSz x)); [|exact B2].
      assert (D2 : dec c (enc c r2 (off2 + reSize c p)) = (r2, off2 + reSize c p)) by (eapply slot_dec; eauto).
      destruct X1 as (K1 & _). eapply bnd_step; eauto.
      * intros t a' h' e' E' D. cbn [idx setIdx] in E'. destruct (N.eq_dec t (tk c (pK p))) as [->|NE].
        -- rewrite fupd_same in E'. injection E' as <- <-. rewrite D2 in D. congruence.
        -- rewrite fupd_other in E' by auto. eapply B; eauto.
      * intros a' h' E' D. cbn [idx setIdx] in E'. rewrite <- HK, fupd_same in E'. injection E' as <- <-. rewrite D2 in D. congruence.
  - (* JRmC *)
    destruct Ti as (J & B & NR & x & p & S & P & HD). pose proof J as (J1 & J2 & J3 & J4). rewrite P in ST.
    destruct (evictAt c s r off p false) as (s1, e1) eqn:EV. injection ST as <- <-.
    destruct (evict_ok s T i r off x p false s1 e1 _ IX Ht J2 B S HD ltac:(discriminate) EV) as (X1 & R1 & T1 & M1 & B1).
    eapply X_Inv; [|eapply updl_same; rewrite T1; exact Ht|].
    + eapply (X_goto c s1 (T ++ e1) i (JRmC r off buf r2)); [exact X1|rewrite T1; exact Ht|..]; cbn; try discriminate; auto.
    + cbn [TInv]. sp; auto; [eapply goto_jobOk; eauto; cbn; now apply N.eqb_neq|]. exists x, p. sp; auto. unfold sl. cbn [regs goto]. rewrite R1. exact S.
  - (* JCl *)
    destruct Ti as (J & NR & x & p & S & P & HD & B). pose proof J as (J1 & J2 & J3 & J4). rewrite P in ST. injection ST as <- <-. rewrite app_nil_r.
    assert (SZ : pSz p = eSz x) by apply HD. rewrite SZ.
    eapply go0; eauto; fin. cbn [TInv]. sp; auto; try discriminate; [apply jobOk_goto; auto|]. exact (next_slot s T r off x K J3 S).
Qed.

Lemma step_region s T i t ch s' e : Inv c s T -> nth_error (thr s) i = Some t ->
  match t with JWait _ _ | JRead _ | JDet _ | JSeq _ _ | JBlk _ | JEnd _ _ => True | _ => False end ->
  tstep c s i t ch = Some (s', e) -> safe e -> Inv c s' (T ++ e).
Proof.
  intros IV Ht KD ST SF. pose proof IV as (K & TI). pose proof (TI i t Ht) as Ti. pose proof (Inv_X c s T i IV) as IX.
  destruct t; try contradiction; cbn [tstep TInv] in *.
  - (* JWait *)
    destruct Ti as (P & R & B). destruct (noWriters s r && (cl || allowRead c || noReaders c s r)) eqn:G; [|discriminate].
    apply andb_true_iff in G. destruct G as (G1 & G2). injection ST as <- <-. rewrite app_nil_r.
    apply noT_bool in G1. change (noT s (writes r)) with (noW s r) in G1.
    assert (J : jobOk c s cl r).
    { unfold jobOk. sp; auto. intros -> AR. split; auto. rewrite AR in G2. cbn in G2. now apply noT_bool in G2. }
    destruct cl; eapply go0; eauto; fin.
    + cbn [TInv]. sp; auto.
      * apply jobOk_goto; auto.
      * exact (bnd_cur s T r K).
      * destruct (K.(C_reg _ _ _) r) as (TL & _). destruct (slot_top c O _ _ TL) as [|(y & Y)]; auto. right. exists y. split; [exact Y|]. eapply written; eauto.
    + cbn [TInv]. apply jobOk_goto; auto.
  - (* JRead *)
    pose proof Ti as (J1 & J2 & J3 & J4). destruct (N.eqb_spec (cur (regs s r)) 0) as [Z|NZ].
    + injection ST as <- <-. rewrite app_nil_r. eapply go0; eauto; fin. cbn [TInv]. sp; auto; try discriminate.
      * apply noT_goto; auto.
      * rewrite <- Z. exact (bnd_cur s T r K).
      * intros X Y. destruct (J4 X Y). split; auto. apply noT_goto; auto.
    + destruct (devRead s r (cF1 ch)) as [f|]; injection ST as <- <-; [|discriminate (SF EBadReclaim (or_introl eq_refl))].
      rewrite app_nil_r. eapply go0; eauto; fin. cbn [TInv]. sp; auto; try discriminate.
      * apply jobOk_goto; auto.
      * exact (bnd_cur s T r K).
      * destruct (K.(C_reg _ _ _) r) as (TL & _). destruct (slot_top c O _ _ TL) as [|(y & Y)]; auto. right. exists y. split; [exact Y|]. eapply written; eauto.
  - (* JDet *)
    destruct Ti as (J & B). pose proof J as (J1 & J2 & J3 & J4). destruct (noReaders c s r) eqn:G; [|discriminate]. apply noT_bool in G.
    injection ST as <- <-. rewrite app_nil_r.
    assert (X1 := X_phase c s T i r PDet (blk (regs s r)) (seqn s) O IX (only_job s T i _ r K Ht eq_refl) (fun _ => conj J3 B) (N.le_refl _) ltac:(discriminate) ltac:(auto)).
    cbv zeta in X1.
    eapply (go0 c _ T i (JDet r)); [exact X1|exact Ht|..]; fin.
    cbn [TInv regs setReg goto]. rewrite fupd_same. cbn [ph blk]. sp; auto; try discriminate.
    + apply (noT_goto (setReg s r _)); auto.
    + intros _. apply (noT_goto (setReg s r _)); auto. intros j u Hj. specialize (G j u Hj). destruct u; cbn in G |- *; auto.
  - (* JSeq *)
    destruct Ti as (P & NW & B & NH & BL). injection ST as <- <-. rewrite app_nil_r.
    assert (X1 := X_phase c s T i r PDrop (blk (regs s r)) (seqn s + 1) O IX (only_job s T i _ r K Ht eq_refl) (fun _ => conj NW B) ltac:(lia) ltac:(intros; right; lia) ltac:(auto)).
    cbv zeta in X1.
    destruct cl; [|destruct (allowRead c) eqn:AR].
    + eapply (go0 c _ T i (JSeq true r)); [exact X1|exact Ht|..]; fin.
      cbn [TInv regs setReg setSeq goto]. rewrite fupd_same. cbn [ph blk]. sp; auto; try discriminate.
      * apply (noT_goto (setReg (setSeq s (seqn s + 1)) r _)); auto.
      * intros _. apply (noT_goto (setReg (setSeq s (seqn s + 1)) r _)); auto. apply NH; auto.
    + eapply (go0 c _ T i (JSeq false r)); [exact X1|exact Ht|..]; fin.
      cbn [TInv regs setReg setSeq goto]. rewrite fupd_same. cbn [ph blk]. sp; auto; try discriminate.
      apply (noT_goto (setReg (setSeq s (seqn s + 1)) r _)); auto.
    + destruct (BL eq_refl eq_refl) as (BL1 & BL2). eapply (go0 c _ T i (JSeq false r)); [exact X1|exact Ht|..]; fin.
      cbn [TInv regs setReg setSeq goto]. rewrite fupd_same. cbn [ph blk]. sp; auto; try discriminate.
      * apply (noT_goto (setReg (setSeq s (seqn s + 1)) r _)); auto.
      * intros _. split; auto. intros _. apply (noT_goto (setReg (setSeq s (seqn s + 1)) r _)); auto.
  - (* JBlk *)
    destruct Ti as (P & NW & B & AR). injection ST as <- <-. rewrite app_nil_r.
    assert (X1 := X_phase c s T i r PDrop true (seqn s) O IX (only_job s T i _ r K Ht eq_refl) (fun _ => conj NW B) ltac:(lia) ltac:(auto) ltac:(auto)).
    cbv zeta in X1.
    eapply (go0 c _ T i (JBlk r)); [exact X1|exact Ht|..]; fin.
    cbn [TInv regs setReg goto]. rewrite fupd_same. cbn [ph blk]. sp; auto; try discriminate.
    + apply (noT_goto (setReg s r _)); auto.
    + intros _. split; auto. congruence.
  - (* JEnd *)
    destruct Ti as (P & NW & B & NH & BL). destruct (cl || negb (allowRead c) || noReaders c s r) eqn:G; [|discriminate].
    injection ST as <- <-. rewrite app_nil_r.
    assert (H : noH c s r).
    { destruct cl; [apply NH; auto|]. destruct (BL eq_refl) as (BL1 & BL2). cbn in G.
      assert (X : noR c s r). { destruct (allowRead c); cbn in G; [now apply noT_bool in G|auto]. }
      intros j u Hj. specialize (X j u Hj). destruct u; cbn in X |- *; auto. }
    assert (X1 := X_reset c s T i r O IX (only_job s T i _ r K Ht eq_refl) P NW H B).
    eapply (go0 c _ T i (JEnd cl r)); [exact X1|exact Ht|..]; fin.
Qed.

Lemma step_thread s T i t ch s' e : Inv c s T -> nth_error (thr s) i = Some t -> tstep c s i t ch = Some (s', e) -> safe e -> Inv c s' (T ++ e).
Proof.
  intros IV Ht ST SF. destruct t.
  - discriminate.
  - eapply step_insert; eauto; exact Logic.I.
  - eapply step_insert; eauto; exact Logic.I.
  - eapply step_insert; eauto; exact Logic.I.
  - eapply step_insert; eauto; exact Logic.I.
  - eapply step_lookup; eauto; exact Logic.I.
  - eapply step_lookup; eauto; exact Logic.I.
  - eapply step_lookup; eauto; exact Logic.I.
  - eapply step_lookup; eauto; exact Logic.I.
  - eapply step_lookup; eauto; exact Logic.I.
  - eapply step_lookup; eauto; exact Logic.I.
  - eapply step_remove; eauto; exact Logic.I.
  - eapply step_region; eauto; exact Logic.I.
  - eapply step_region; eauto; exact Logic.I.
  - eapply step_walk; eauto.
  - eapply step_item; eauto; exact Logic.I.
  - eapply step_item; eauto; exact Logic.I.
  - eapply step_item; eauto; exact Logic.I.
  - eapply step_item; eauto; exact Logic.I.
  - eapply step_item; eauto; exact Logic.I.
  - eapply step_item; eauto; exact Logic.I.
  - eapply step_region; eauto; exact Logic.I.
  - eapply step_region; eauto; exact Logic.I.
  - eapply step_region; eauto; exact Logic.I.
  - eapply step_region; eauto; exact Logic.I.
Qed.
End Jobs.
