(** Runs keep the invariant; the events of one call. *)
From Coq Require Import List NArith Bool Lia.
From Verif Require Import Bytes AddrCode_model AddrCode_spec AddrCode_proofs AddrCode_props BlockCache_model BlockCache_spec BlockCache_proofs BlockCache_proofs2 BlockCache_proofs3 BlockCache_proofs4 BlockCache_proofs5.
Import ListNotations.
Local Open Scope N_scope.
Ltac Zify.zify_post_hook ::= idtac.

Section Env.
Variable c : cfg.
Hypothesis O : okCfg c.

Lemma no_job s T r : Inv c s T -> ph (regs s r) = PFull \/ ph (regs s r) = POpen -> forall j t, nth_error (thr s) j = Some t -> jobReg t <> Some r.
Proof.
  intros (K & I) P j t Hj J. pose proof (I j t Hj) as Tj.
  destruct t; cbn [jobReg] in J; try discriminate; injection J as ->; cbn [TInv] in Tj; unfold jobOk in Tj; intuition congruence || (destruct cl; intuition congruence).
Qed.
Lemma blk_off s T r : Inv c s T -> ph (regs s r) = PFull \/ ph (regs s r) = POpen -> blk (regs s r) = false.
Proof.
  intros (K & I) P. destruct (K.(C_reg _ _ _) r) as (_ & _ & _ & _ & B). destruct (blk (regs s r)); auto. exfalso. intuition congruence.
Qed.
Lemma X_all s T i : InvX c s T i -> nth_error (thr s) i = None -> Inv c s T.
Proof. intros (K & I) H. split; auto. intros j t Hj. apply I; auto. intros ->. congruence. Qed.

Lemma step_env s T l s' e : Inv c s T -> step c s l = Some (s', e) -> safe e -> Inv c s' (T ++ e).
Proof.
  intros IV ST SF. destruct l; cbn [step] in ST.
  - injection ST as <- <-.
    assert (X1 : InvX c (spawn s (startT c o)) T (length (thr s))).
    { apply X_spawn; auto; try (intros; destruct o; cbn; try destruct (_ || _); reflexivity).
      intros r J. destruct o; cbn in J; try discriminate. destruct (_ || _); discriminate. }
    eapply X_Inv with (i := length (thr s)) (t := startT c o).
    + apply X_ext; [exact X1|reflexivity|]. apply good1. exact Logic.I.
    + cbn. rewrite nth_error_app2, PeanoNat.Nat.sub_diag by lia. reflexivity.
    + assert (H : In (ECall (length (thr s)) o) (T ++ [ECall (length (thr s)) o])) by (apply in_or_app; right; now left).
      destruct o; cbn [startT].
      * cbn [TInv]. apply N.mod_lt. discriminate.
      * cbn [TInv opOf]. exact H.
      * destruct (_ || _); cbn [TInv opOf]; auto.
  - (* job *)
    destruct (ph (regs s r)) eqn:P; try discriminate. destruct (N.ltb_spec r (nregs c)) as [R|]; [|discriminate]. injection ST as <- <-. rewrite app_nil_r.
    set (b := if cl || allowRead c then blk (regs s r) else true).
    assert (X1 : InvX c (spawn s (JWait cl r)) T (length (thr s))).
    { apply X_spawn; auto. cbn. intros r' E. injection E as <-. exact P. }
    assert (X2 := X_phase c (spawn s (JWait cl r)) T (length (thr s)) r PRecl b (seqn s) O X1).
    cbv zeta in X2. eapply X_Inv with (i := length (thr s)) (t := JWait cl r).
    + apply X2; try (cbn; lia); auto; try discriminate.
      * intros j t NJ Hj. cbn in Hj. apply nth_app_new in Hj. destruct Hj as [(-> & _)|(_ & Hj)]; [congruence|]. eapply no_job; eauto.
      * intros [|]; discriminate.
    + cbn. rewrite nth_error_app2, PeanoNat.Nat.sub_diag by lia. reflexivity.
    + cbn [TInv regs spawn setReg]. rewrite fupd_same. cbn [ph blk]. sp; auto. intros -> AR. unfold b. now rewrite AR.
  - destruct (ph (regs s r)) eqn:P; try discriminate. destruct ((r <? nregs c) && (cur (regs s r) =? 0)); [|discriminate]. injection ST as <- <-. rewrite app_nil_r.
    assert (X2 := X_phase c s T (length (thr s)) r POpen (blk (regs s r)) (seqn s) O (Inv_X _ _ _ _ IV)). cbv zeta in X2.
    apply (X_all _ T (length (thr s))); [|apply nth_error_None; apply le_n]. apply X2; try lia; try discriminate.
    + intros. eapply no_job; eauto.
    + intros [|]; discriminate.
    + rewrite (blk_off s T r); auto. discriminate.
  - destruct (ph (regs s r)) eqn:P; try discriminate. injection ST as <- <-. rewrite app_nil_r.
    assert (X2 := X_phase c s T (length (thr s)) r PFull (blk (regs s r)) (seqn s) O (Inv_X _ _ _ _ IV)). cbv zeta in X2.
    apply (X_all _ T (length (thr s))); [|apply nth_error_None; apply le_n]. apply X2; try lia; try discriminate.
    + intros. eapply no_job; eauto.
    + intros [|]; discriminate.
    + rewrite (blk_off s T r); auto. discriminate.
  - destruct (nth_error (thr s) i) as [t|] eqn:Ht; [|discriminate]. eapply step_thread; eauto.
Qed.
Lemma init_ok m : Inv c (init m) [].
Proof.
  split; [constructor|].
  - intro r. unfold regOk, sl. cbn. sp; auto; try lia; try discriminate.
  - intro t. exact Logic.I.
  - intros i j ti tj r H. cbn in H. destruct i; discriminate.
  - intros i j ti tj r H. cbn in H. destruct i; discriminate.
  - intros r e x S. discriminate.
  - intros T1 e T2 E. destruct T1; discriminate.
  - intros j t H. cbn in H. destruct j; discriminate.
Qed.
Lemma run_inv m s T : run c m s T -> safe T -> Inv c s T.
Proof.
  induction 1 as [|s T l s' e R IH ST]; intro S; [apply init_ok|]. apply safe_app in S. destruct S as (S1 & S2). eapply step_env; eauto.
Qed.
Lemma run_good m s T T1 e T2 : run c m s T -> safe T -> T = T1 ++ e :: T2 -> goodEv c T1 e.
Proof. intros R S E. destruct (run_inv m s T R S) as (K & _). eapply K.(C_good _ _ _); eauto. Qed.
End Env.

(** ** What is stored is what was written last *)
Lemma holder_snoc c t T e : holder c t (T ++ [e]) = effect c t (holder c t T) e.
Proof. now rewrite holder_app. Qed.
Lemma bytes_eqb_refl k : bytes_eqb k k = true.
Proof. now apply bytes_eqb_spec. Qed.
Lemma lastWrite_snoc k T e : lastWrite k (T ++ [e]) = match e with
    | EPut _ k' v _ => if bytes_eqb k' k then Some v else lastWrite k T
    | EDel _ k' => if bytes_eqb k' k then None else lastWrite k T
    | _ => lastWrite k T end.
Proof. unfold lastWrite. rewrite fold_left_app. cbn. destruct e; reflexivity. Qed.
Lemma holder_last c k : forall T v la, holder c (tk c k) T = Some (k, v, la) -> lastWrite k T = Some v.
Proof.
  induction T as [|e T IH] using rev_ind; intros v la H; [discriminate|]. rewrite holder_snoc in H. rewrite lastWrite_snoc.
  destruct e; cbn [effect] in H; try (eapply IH; eassumption).
  - destruct (N.eqb_spec (tk c k0) (tk c k)) as [E|NE].
    + injection H as -> -> _. now rewrite bytes_eqb_refl.
    + destruct (bytes_eqb k0 k) eqn:B; [apply bytes_eqb_spec in B; congruence|]. eapply IH; eauto.
  - destruct (N.eqb_spec (tk c k0) (tk c k)) as [E|NE]; [discriminate|].
    destruct (bytes_eqb k0 k) eqn:B; [apply bytes_eqb_spec in B; congruence|]. eapply IH; eauto.
  - destruct (tk c k0 =? tk c k); [|eapply IH; eauto]. destruct (holder c (tk c k) T) as [((k' & v') & la')|]; [|discriminate].
    injection H as -> -> _. eapply IH; eauto.
  - destruct (tk c k0 =? tk c k); [discriminate|eapply IH; eauto].
  - destruct (tk c k0 =? tk c k); [discriminate|eapply IH; eauto].
  - destruct (t =? tk c k); [discriminate|eapply IH; eauto].
Qed.
Lemma stored_last c k T v la : stored c k T = Some (v, la) -> lastWrite k T = Some v.
Proof.
  unfold stored. destruct (holder c (tk c k) T) as [((k' & v') & la')|] eqn:H; [|discriminate].
  destruct (bytes_eqb k' k) eqn:B; [|discriminate]. apply bytes_eqb_spec in B. subst. intro E. injection E as -> ->. eapply holder_last; eauto.
Qed.

(** ** The events of one call *)
Definition pre (c : cfg) (i : nat) (t : tst) (l : list event) : Prop :=
  match t with
  | TDone => l = [] \/ exists o l', callTrace i o (l ++ l')
  | IAlloc k v la | IWrite k v la _ _ _ | IIdx k v la _ _ _ => exists la0, la = la0 mod 2 ^ 32 /\ l = [ECall i (OInsert k v la0)]
  | IClose _ => exists k v la, l = [ECall i (OInsert k v la); EPut i k v (la mod 2 ^ 32)]
  | LSeq w k _ | LIdx w k _ _ | LOpen w k _ _ _ _ | LChk w k _ _ _ _ | LRead w k _ _ _ => l = [ECall i (opOf w k)]
  | LRm w k _ x => l = [ECall i (opOf w k)] /\ x <> RUB
  | RRem k _ => l = [ECall i (ORemove k)]
  | _ => l = []
  end.
Definition Shape (c : cfg) (s : state) (T : list event) : Prop := forall i,
  match nth_error (thr s) i with Some t => pre c i t (filter (mine i) T) | None => filter (mine i) T = [] end.
Definition foreign (i : nat) (e : list event) : Prop := forall j, j <> i -> filter (mine j) e = [].
Lemma shape_go c s s1 T i t t1 e : Shape c s T -> nth_error (thr s) i = Some t -> thr s1 = updl (thr s) i t1 -> foreign i e ->
  (pre c i t (filter (mine i) T) -> pre c i t1 (filter (mine i) T ++ filter (mine i) e)) -> Shape c s1 (T ++ e).
Proof.
  intros S Ht E F P j. rewrite E, filter_app. destruct (PeanoNat.Nat.eq_dec j i) as [->|NJ].
  - erewrite updl_same by eauto. apply P. specialize (S i). now rewrite Ht in S.
  - rewrite updl_other, F, app_nil_r by auto. apply S.
Qed.
Lemma callres i o l l' : callTrace i o (l ++ l') -> exists o l'', callTrace i o (l ++ l'').
Proof. eauto. Qed.
Lemma finish_thr c s i w k x s1 e : finish c s i w k x = (s1, e) -> x <> RUB -> exists t1, thr s1 = updl (thr s) i t1 /\ foreign i e /\
  (forall j, filter (mine j) e = e \/ j <> i) /\
  forall l, l = [ECall i (opOf w k)] -> pre c i t1 (l ++ filter (mine i) e).
Proof.
  unfold finish. intros F NU. destruct w.
  - injection F as <- <-. exists TDone. cbn. sp; auto.
    + intros j NJ. cbn. destruct (PeanoNat.Nat.eqb_spec j i); [congruence|reflexivity].
    + intro j. destruct (PeanoNat.Nat.eqb_spec j i); auto.
    + intros l ->. rewrite PeanoNat.Nat.eqb_refl. right. exists (OLookup k), []. cbn. destruct x; cbn; try (constructor; discriminate); congruence.
  - destruct x; try congruence.
    + injection F as <- <-. eexists. cbn. sp; [reflexivity|intros j NJ; reflexivity|auto|]. intros l ->. reflexivity.
    + injection F as <- <-. exists TDone. cbn. sp; auto.
      * intros j NJ. cbn. destruct (PeanoNat.Nat.eqb_spec j i); [congruence|reflexivity].
      * intro j. destruct (PeanoNat.Nat.eqb_spec j i); auto.
      * intros l ->. rewrite PeanoNat.Nat.eqb_refl. right. exists (ORemove k), []. apply CT_remove_no; auto.
    + injection F as <- <-. exists TDone. cbn. sp; auto.
      * intros j NJ. cbn. destruct (PeanoNat.Nat.eqb_spec j i); [congruence|reflexivity].
      * intro j. destruct (PeanoNat.Nat.eqb_spec j i); auto.
      * intros l ->. rewrite PeanoNat.Nat.eqb_refl. right. exists (ORemove k), []. apply CT_remove_no; auto.
    + destruct (preciseRemove c); injection F as <- <-.
      * exists TDone. cbn. sp; auto.
        -- intros j NJ. cbn. destruct (PeanoNat.Nat.eqb_spec j i); [congruence|reflexivity].
        -- intro j. destruct (PeanoNat.Nat.eqb_spec j i); auto.
        -- intros l ->. rewrite PeanoNat.Nat.eqb_refl. right. exists (ORemove k), []. apply CT_remove_no; auto.
      * eexists. cbn. sp; [reflexivity|intros j NJ; reflexivity|auto|]. intros l ->. reflexivity.
Qed.
Lemma foreign_nil i : foreign i [].
Proof. intros j _. reflexivity. Qed.
Lemma foreign_app i a b : foreign i a -> foreign i b -> foreign i (a ++ b).
Proof. intros A B j NJ. now rewrite filter_app, A, B. Qed.
Lemma alloc_thr c s r sz k v la s1 : alloc c s r sz k v la = Some s1 -> thr s1 = thr s.
Proof. unfold alloc. destruct (ph _); try discriminate. destruct (_ && _); [|discriminate]. intro E. injection E as <-. reflexivity. Qed.
Lemma evict_thr c s r off p dt s1 e : evictAt c s r off p dt = (s1, e) -> thr s1 = thr s /\ foreign 0 e /\ forall i, filter (mine i) e = [].
Proof. unfold evictAt. destruct (matches _ _ _); intro E; injection E as <- <-; repeat split; intros; reflexivity. Qed.
Lemma again_thr c s i w k n s1 e : again s i w k n = (s1, e) -> exists t1, thr s1 = updl (thr s) i t1 /\ foreign i e /\
  forall l, l = [ECall i (opOf w k)] -> pre c i t1 (l ++ filter (mine i) e).
Proof.
  unfold again. destruct n; intro E; injection E as <- <-; eexists; (split; [reflexivity|split]).
  - intros j NJ. cbn. destruct (PeanoNat.Nat.eqb_spec j i); [congruence|reflexivity].
  - intros l ->. cbn. rewrite PeanoNat.Nat.eqb_refl. right. destruct w; cbn; eexists _, []; [apply CT_lookup; discriminate|apply CT_remove_no; auto].
  - apply foreign_nil.
  - intros l ->. reflexivity.
Qed.
Ltac frn := intros j NJ; cbn; repeat match goal with |- context [Nat.eqb ?a ?b] => destruct (PeanoNat.Nat.eqb_spec a b); [congruence|] end; reflexivity.
Ltac pr := cbn; rewrite ?PeanoNat.Nat.eqb_refl, ?app_nil_r; auto.

Lemma step_shape_thread c s T i t ch s' e : Shape c s T -> nth_error (thr s) i = Some t -> tstep c s i t ch = Some (s', e) -> Shape c s' (T ++ e).
Proof.
  intros S Ht ST.
  assert (TRIV : forall s1 t1 e1, thr s1 = updl (thr s) i t1 -> (forall j, filter (mine j) e1 = []) -> (forall l, pre c i t l -> pre c i t1 l) -> Shape c s1 (T ++ e1)).
  { intros s1 t1 e1 E F P. eapply shape_go; eauto; [intros j _; apply F|]. rewrite F, app_nil_r. apply P. }
  destruct t; cbn [tstep] in ST; try discriminate.
  - (* IAlloc *)
    set (ub := if 32 + lenN k + lenN v + algn c <=? U32 then [] else [EUB]) in ST.
    assert (U : forall j, filter (mine j) ub = []) by (intro j; unfold ub; now destruct (_ <=? _)).
    assert (D : forall x, x = Rejected \/ x = Retry -> Shape c (goto s i TDone) (T ++ ub ++ [ERes i x])).
    { intros x X. eapply shape_go; eauto; [cbn; reflexivity|apply foreign_app; [intros j _; apply U|frn]|]. intros (la0 & -> & ->).
      rewrite filter_app, U. pr. right. eexists _, []. now apply CT_insert_no. }
    destruct (kMaxItemSize <? _); [injection ST as <- <-; auto|]. destruct (cB ch) as [|[|n]]; [|injection ST as <- <-; auto..].
    destruct (alloc _ _ _ _ _ _ _) as [s1|] eqn:A; [|discriminate]. injection ST as <- <-. apply alloc_thr in A.
    eapply TRIV; [cbn; rewrite A; reflexivity|exact U|]. auto.
  - injection ST as <- <-. eapply TRIV; [reflexivity|reflexivity|]. auto.
  - cbv zeta in ST. destruct (cB ch); [injection ST as <- <-; eapply shape_go; eauto; [reflexivity|frn|]; intros (la0 & -> & ->); pr; eauto|].
    destruct (idx s (cR ch)); [|discriminate]. destruct (idx s (tk c k)); [discriminate|]. destruct (displaces c); [|discriminate].
    injection ST as <- <-; eapply shape_go; eauto; [reflexivity|frn|]; intros (la0 & -> & ->); pr; eauto.
  - injection ST as <- <-. eapply shape_go; eauto; [reflexivity|frn|]. intros (k & v & la & ->). pr. right. eexists _, []. constructor.
  - injection ST as <- <-. eapply TRIV; [reflexivity|reflexivity|]. auto.
  - (* LIdx *)
    destruct (idx s (tk c k)) as [(code & hint)|].
    + injection ST as <- <-. eapply TRIV; [reflexivity|reflexivity|]. auto.
    + destruct (finish c s i w k RMiss) as (s1, e1) eqn:F. injection ST as <- <-.
      destruct (finish_thr _ _ _ _ _ _ _ _ F ltac:(discriminate)) as (t1 & A & B & _ & D). eapply shape_go; eauto.
  - destruct (blk _).
    + destruct (again s i w k n) as (s1, e1) eqn:F. injection ST as <- <-. destruct (again_thr c _ _ _ _ _ _ _ F) as (t1 & A & B & D). eapply shape_go; eauto.
    + injection ST as <- <-. eapply TRIV; [reflexivity|reflexivity|]. auto.
  - destruct (seqn s =? q).
    + injection ST as <- <-. eapply TRIV; [reflexivity|intro j; destruct (ph _); reflexivity|]. auto.
    + destruct (again s i w k n) as (s1, e1) eqn:F. injection ST as <- <-. destruct (again_thr c _ _ _ _ _ _ _ F) as (t1 & A & B & D). eapply shape_go; eauto.
  - (* LRead *)
    destruct (dec c code) as (r, off). set (mk := if _ || _ then [EUndetected] else []) in ST.
    assert (U : forall j, filter (mine j) mk = []) by (intro j; unfold mk; now destruct (_ || _)).
    assert (FN : forall x, x <> RUB -> forall s1 e1, finish c s i w k x = (s1, e1) -> Shape c s1 (T ++ mk ++ e1)).
    { intros x X s1 e1 F. destruct (finish_thr _ _ _ _ _ _ _ _ F X) as (t1 & A & B & _ & D). eapply shape_go; eauto; [apply foreign_app; [intros j _; apply U|auto]|].
      rewrite filter_app, U. exact (D _). }
    destruct (readEntry _ _ _ _ _ _).
    + destruct (finish c s i w k (ROk v la)) as (s1, e1) eqn:F. injection ST as <- <-. eapply FN; [|eauto]. discriminate.
    + injection ST as <- <-. eapply TRIV; [reflexivity|reflexivity|]. cbn. intros l ->. split; [auto|discriminate].
    + destruct again; injection ST as <- <-; eapply TRIV; try reflexivity; cbn; auto. intros l ->. split; [auto|discriminate].
    + destruct again.
      * injection ST as <- <-. eapply TRIV; [reflexivity|exact U|]. cbn. intros l ->. split; [auto|discriminate].
      * destruct (finish c s i w k RMiss) as (s1, e1) eqn:F. injection ST as <- <-. eapply FN; [|eauto]. discriminate.
    + injection ST as <- <-. eapply TRIV; [reflexivity|reflexivity|]. cbn. intros l ->. right.
      destruct w; [exists (OLookup k), [ERes i NotFound]; apply CT_lookup; discriminate|exists (ORemove k), [ERes i NotFound]; apply CT_remove_no; auto].
  - (* LRm *)
    destruct (if matches s (tk c k) code then _ else _) as (s1, e1) eqn:M. destruct (finish c s1 i w k res) as (s2, e2) eqn:F. injection ST as <- <-.
    assert (TH : thr s1 = thr s /\ forall j, filter (mine j) e1 = []) by (destruct (matches _ _ _); injection M as <- <-; split; reflexivity). destruct TH as (TH & U).
    pose proof (S i) as Pi; rewrite Ht in Pi; destruct Pi as (_ & NU); destruct (finish_thr _ _ _ _ _ _ _ _ F NU) as (t1 & A & B & _ & D); rewrite TH in A.
    eapply shape_go; eauto; [apply foreign_app; [intros j _; apply U|auto]|]; rewrite filter_app, U; intros (P1 & _); apply D; exact P1.
  - (* RRem *)
    injection ST as <- <-. eapply shape_go; eauto; [reflexivity| |].
    + intros j NJ. cbn. destruct (PeanoNat.Nat.eqb_spec j i); [congruence|]. rewrite filter_app.
      replace (filter (mine j) (match ov with Some v => _ | None => [] end)) with (@nil event) by (destruct ov; auto; destruct (_ && _); auto).
      cbn. destruct (PeanoNat.Nat.eqb_spec j i); [congruence|reflexivity].
    + intros ->. cbn [filter mine]. rewrite PeanoNat.Nat.eqb_refl, filter_app.
      replace (filter (mine i) (match ov with Some v => _ | None => [] end)) with (@nil event) by (destruct ov; auto; destruct (_ && _); auto).
      pr. right. eexists _, []. apply CT_remove. destruct (idx s (tk c k)); auto.
  - destruct (_ && _); [|discriminate]. injection ST as <- <-. destruct cl; (eapply TRIV; [reflexivity|reflexivity|]; auto).
  - destruct (_ =? 0); [injection ST as <- <-; eapply TRIV; [reflexivity|reflexivity|]; auto|].
    destruct (devRead _ _ _); injection ST as <- <-; (eapply TRIV; [reflexivity|reflexivity|]; auto).
  - (* JWalk *)
    assert (W : forall s1 t1 e1, t1 = walkEnd cl r \/ (exists o b, t1 = JWalk cl r o b) \/ (exists o b, t1 = JDec r o b) -> thr s1 = thr s -> (forall j, filter (mine j) e1 = []) -> Shape c (goto s1 i t1) (T ++ e1)).
    { intros s1 t1 e1 Ct TH U. eapply TRIV; [cbn; rewrite TH; reflexivity|exact U|]. cbn. intros l ->. destruct Ct as [->|[(o & b & ->)|(o & b & ->)]]; [destruct cl|..]; reflexivity. }
    destruct (off =? 0); [injection ST as <- <-; apply W; auto|].
    destruct (parseAt c buf off) as [p|]; [|injection ST as <- <-; apply W; auto].
    set (mk := if sameHead _ _ _ _ _ _ then [] else [EBadReclaim]) in ST. assert (U : forall j, filter (mine j) mk = []) by (intro j; unfold mk; now destruct (sameHead _ _ _ _ _ _)).
    destruct cl.
    + destruct (evictAt c s r off p true) as (s1, e1) eqn:E. injection ST as <- <-. destruct (evict_thr _ _ _ _ _ _ _ _ E) as (A & _ & B). apply W; eauto. intro j. now rewrite filter_app, U, B.
    + destruct (match idx s (tk c (pK p)) with Some (a, _) => _ | None => false end); injection ST as <- <-; apply W; eauto.
  - destruct (parseAt c buf off) as [p|]; [|discriminate]. destruct (cB ch) as [|[|[|[|n]]]].
    + injection ST as <- <-. eapply TRIV; try reflexivity; auto.
    + injection ST as <- <-. eapply TRIV; try reflexivity; auto.
    + destruct (_ && _); [|discriminate]. injection ST as <- <-. eapply TRIV; try reflexivity; auto.
    + injection ST as <- <-. eapply TRIV; try reflexivity; auto.
    + destruct (_ && _); [discriminate|]. destruct (alloc _ _ _ _ _ _ _) as [s1|] eqn:A; [|discriminate]. injection ST as <- <-. apply alloc_thr in A.
      eapply TRIV; [cbn; rewrite A; reflexivity|intro j; now destruct (sameValue _ _ _ _ _)|auto].
  - destruct (parseAt c buf off) as [p|]; [|discriminate]. destruct (evictAt c s r off p dt) as (s1, e1) eqn:E. injection ST as <- <-.
    destruct (evict_thr _ _ _ _ _ _ _ _ E) as (A & _ & B). eapply TRIV; [cbn; rewrite A; reflexivity| |auto].
    intro j. rewrite filter_app, B. now destruct (_ && _).
  - destruct (parseAt c buf off) as [p|]; [|discriminate]. injection ST as <- <-. eapply TRIV; [reflexivity|reflexivity|auto].
  - destruct (parseAt c buf off) as [p|]; [|discriminate]. destruct (idx s (tk c (pK p))) as [(a & h)|]; [destruct (a =? enc c r off)|]; injection ST as <- <-; (eapply TRIV; [reflexivity|reflexivity|auto]).
  - destruct (parseAt c buf off) as [p|]; [|discriminate]. destruct (evictAt c s r off p false) as (s1, e1) eqn:E. injection ST as <- <-.
    destruct (evict_thr _ _ _ _ _ _ _ _ E) as (A & _ & B). eapply TRIV; [cbn; rewrite A; reflexivity|exact B|auto].
  - destruct (parseAt c buf off) as [p|]; [|discriminate]. injection ST as <- <-. eapply TRIV; [reflexivity|reflexivity|auto].
  - destruct (noReaders _ _ _); [|discriminate]. injection ST as <- <-. eapply TRIV; [reflexivity|reflexivity|auto].
  - injection ST as <- <-. destruct cl; [|destruct (allowRead c)]; (eapply TRIV; [reflexivity|reflexivity|auto]).
  - injection ST as <- <-. eapply TRIV; [reflexivity|reflexivity|auto].
  - destruct (_ || _ || _); [|discriminate]. injection ST as <- <-. eapply TRIV; [reflexivity|reflexivity|]. cbn. auto.
Qed.
Lemma shape_new c s s1 T t e : Shape c s T -> thr s1 = thr s ++ [t] -> foreign (length (thr s)) e -> pre c (length (thr s)) t (filter (mine (length (thr s))) e) -> Shape c s1 (T ++ e).
Proof.
  intros S E F P i. rewrite E, filter_app. pose proof (S i) as Si. destruct (nth_error (thr s ++ [t]) i) as [u|] eqn:H.
  - apply nth_app_new in H. destruct H as [(-> & ->)|(L & H)].
    + assert (X : nth_error (thr s) (length (thr s)) = None) by now apply nth_error_None. rewrite X in Si. rewrite Si. exact P.
    + rewrite H in Si. rewrite F, app_nil_r by lia. exact Si.
  - apply nth_error_None in H. rewrite app_length in H. cbn in H. assert (X : nth_error (thr s) i = None) by (apply nth_error_None; lia). rewrite X in Si.
    rewrite Si, F by lia. reflexivity.
Qed.
Lemma step_shape c s T l s' e : Shape c s T -> step c s l = Some (s', e) -> Shape c s' (T ++ e).
Proof.
  intros S ST. destruct l; cbn [step] in ST.
  - injection ST as <- <-. eapply shape_new; eauto; [reflexivity|frn|]. cbn [filter mine]. rewrite PeanoNat.Nat.eqb_refl.
    destruct o; cbn [startT]; [|reflexivity|destruct (_ || _); reflexivity]. cbn. eauto.
  - destruct (ph _); try discriminate. destruct (r <? nregs c); [|discriminate]. injection ST as <- <-. eapply shape_new; eauto; [reflexivity|apply foreign_nil|reflexivity].
  - destruct (ph _); try discriminate. destruct (_ && _); [|discriminate]. injection ST as <- <-. rewrite app_nil_r. exact S.
  - destruct (ph _); try discriminate. injection ST as <- <-. rewrite app_nil_r. exact S.
  - destruct (nth_error (thr s) i) as [t|] eqn:Ht; [|discriminate]. eapply step_shape_thread; eauto.
Qed.
Lemma run_shape c m s T : run c m s T -> Shape c s T.
Proof. induction 1 as [|s T l s' e R IH ST]; [intro i; cbn; destruct i; reflexivity|]. eapply step_shape; eauto. Qed.
Lemma run_calls c m s T i : run c m s T -> filter (mine i) T = [] \/ exists o l, callTrace i o (filter (mine i) T ++ l).
Proof.
  intro R. pose proof (run_shape c m s T R i) as H. destruct (nth_error (thr s) i) as [t|]; [|auto].
  destruct t; cbn [pre] in H; auto.
  all: try (destruct H as (la0 & _ & ->); right; eexists _, [ERes i Retry]; apply CT_insert_no; auto).
  - destruct H as (k & v & la & ->). right. eexists _, [ERes i Stored]. constructor.
  - rewrite H. right. destruct w; cbn; eexists _, [ERes i NotFound]; [apply CT_lookup; discriminate|apply CT_remove_no; auto].
  - rewrite H. right. destruct w; cbn; eexists _, [ERes i NotFound]; [apply CT_lookup; discriminate|apply CT_remove_no; auto].
  - rewrite H. right. destruct w; cbn; eexists _, [ERes i NotFound]; [apply CT_lookup; discriminate|apply CT_remove_no; auto].
  - rewrite H. right. destruct w; cbn; eexists _, [ERes i NotFound]; [apply CT_lookup; discriminate|apply CT_remove_no; auto].
  - rewrite H. right. destruct w; cbn; eexists _, [ERes i NotFound]; [apply CT_lookup; discriminate|apply CT_remove_no; auto].
  - destruct H as (H & _). rewrite H. right. destruct w; cbn; eexists _, [ERes i NotFound]; [apply CT_lookup; discriminate|apply CT_remove_no; auto].
  - rewrite H. right. eexists _, [ERes i NotFound]. apply CT_remove_no; auto.
Qed.
Lemma callTrace_call i o l o' : callTrace i o l -> In (ECall i o') l -> o' = o.
Proof. intros H. destruct H; cbn; intros Q; repeat destruct Q as [Q|Q]; try discriminate; try contradiction; congruence. Qed.
Lemma run_call1 c m s T i o1 o2 : run c m s T -> In (ECall i o1) T -> In (ECall i o2) T -> o1 = o2.
Proof.
  intros R H1 H2. destruct (run_calls c m s T i R) as [E|(o & l & C)].
  - exfalso. assert (X : In (ECall i o1) (filter (mine i) T)) by (apply filter_In; split; auto; cbn; apply PeanoNat.Nat.eqb_refl). rewrite E in X. exact X.
  - assert (X : forall o', In (ECall i o') T -> o' = o).
    { intros o' H. eapply callTrace_call; eauto. apply in_or_app. left. apply filter_In. split; auto. cbn. apply PeanoNat.Nat.eqb_refl. }
    now rewrite (X _ H1), (X _ H2).
Qed.
Lemma exec_run c m ls : forall s T s' T', run c m s T -> exec c s ls T = Some (s', T') -> run c m s' T'.
Proof.
  induction ls as [|l ls IH]; cbn [exec]; intros s T s' T' R E; [now injection E as <- <-|].
  destruct (step c s l) as [(s1, e)|] eqn:ST; [|discriminate]. eapply IH; [|exact E]. eapply runS; eauto.
Qed.
Lemma during_imp i o T (P Q : list event -> Prop) : (forall A, P A -> Q A) -> during i o T P -> during i o T Q.
Proof. intros H (A & B & E & I & X). exists A, B. auto. Qed.
Lemma during_call i o T P : during i o T P -> In (ECall i o) T.
Proof. intros (A & B & -> & H & _). apply in_or_app. auto. Qed.

(** ** Statements *)
Section Main.
Variables (c : cfg) (m : N -> N -> N) (s : state) (T1 : list event) (e : event) (T2 : list event).
Hypothesis O : okCfg c.
Hypothesis R : run c m s (T1 ++ e :: T2).
Hypothesis S : safe (T1 ++ e :: T2).
Lemma the_call i o1 o2 : In (ECall i o1) T1 -> In (ECall i o2) (T1 ++ e :: T2) -> o1 = o2.
Proof. intros H1 H2. eapply run_call1; eauto. apply in_or_app. auto. Qed.
Lemma found_ok i k v la : e = ERes i (Found v la) -> In (ECall i (OLookup k)) (T1 ++ e :: T2) ->
  during i (OLookup k) T1 (fun A => stored c k A = Some (v, la) /\ lastWrite k A = Some v).
Proof.
  intros E I. pose proof (run_good c O m s _ T1 e T2 R S eq_refl) as G. rewrite E in G. destruct G as (k' & D).
  pose proof (the_call _ _ _ (during_call _ _ _ _ D) I) as Q. injection Q as ->.
  eapply during_imp; [|exact D]. intros A H. split; auto. exact (stored_last c k A v la H).
Qed.
Lemma missing_ok i k : e = ERes i NotFound -> In (ECall i (OLookup k)) (T1 ++ e :: T2) -> during i (OLookup k) T1 (fun A => stored c k A = None).
Proof.
  intros E I. pose proof (run_good c O m s _ T1 e T2 R S eq_refl) as G. rewrite E in G. destruct G as (k' & [D|D]);
    pose proof (the_call _ _ _ (during_call _ _ _ _ D) I) as Q; [injection Q as ->; exact D|discriminate].
Qed.
Lemma rm_missing_ok i k : e = ERes i NotFound -> In (ECall i (ORemove k)) (T1 ++ e :: T2) -> during i (ORemove k) T1 (fun A => stored c k A = None).
Proof.
  intros E I. pose proof (run_good c O m s _ T1 e T2 R S eq_refl) as G. rewrite E in G. destruct G as (k' & [D|D]);
    pose proof (the_call _ _ _ (during_call _ _ _ _ D) I) as Q; [discriminate|injection Q as ->; exact D].
Qed.
Lemma removed_ok i k : e = ERes i Removed -> In (ECall i (ORemove k)) (T1 ++ e :: T2) -> during i (ORemove k) T1 (fun A => holder c (tk c k) A <> None).
Proof.
  intros E I. pose proof (run_good c O m s _ T1 e T2 R S eq_refl) as G. rewrite E in G. destruct G as (k' & D).
  pose proof (the_call _ _ _ (during_call _ _ _ _ D) I) as Q. injection Q as ->. exact D.
Qed.
Lemma evict_good k v dt : e = EEvict k v dt -> exists v' la, stored c k T1 = Some (v', la) /\ lastWrite k T1 = Some v' /\ (dt = true -> v = v').
Proof.
  intros E. pose proof (run_good c O m s _ T1 e T2 R S eq_refl) as G. rewrite E in G. destruct G as (v' & la & H & D). exists v', la.
  assert (X : stored c k T1 = Some (v', la)) by (rewrite (stored_holder _ _ _ _ _ _ H), bytes_eqb_refl; reflexivity).
  repeat split; auto. eapply stored_last; eauto.
Qed.
Lemma reins_good k : e = EReins k -> exists v la, stored c k T1 = Some (v, la) /\ stored c k (T1 ++ [e]) = Some (v, 0).
Proof.
  intros E. pose proof (run_good c O m s _ T1 e T2 R S eq_refl) as G. rewrite E in G |- *. destruct G as (v & la & H). exists v, la.
  rewrite (stored_holder _ _ _ _ _ _ H), bytes_eqb_refl. split; auto. unfold stored. rewrite holder_snoc. cbn [effect].
  now rewrite N.eqb_refl, H, bytes_eqb_refl.
Qed.
Lemma dtor_good k v : e = EDtorRem k v -> exists i, during i (ORemove k) T1 (fun A => lastWrite k A = Some v).
Proof.
  intros E. pose proof (run_good c O m s _ T1 e T2 R S eq_refl) as G. rewrite E in G. destruct G as (i & D). exists i. eapply during_imp; [|exact D].
  intros A (la & H). eapply stored_last; eauto.
Qed.
Lemma drop_good k : e = EDrop k -> holder c (tk c k) T1 <> None.
Proof. intros E. pose proof (run_good c O m s _ T1 e T2 R S eq_refl) as G. rewrite E in G. exact G. Qed.
Lemma displ_good t : e = EDispl t -> holder c t T1 <> None /\ displaces c = true.
Proof. intros E. pose proof (run_good c O m s _ T1 e T2 R S eq_refl) as G. rewrite E in G. exact G. Qed.
End Main.

(** ** The two indexes are good enough *)
Lemma sparse_ok c : valid_config (devSize c) (cacheSize c) (regionSize c) = true -> devSize c < 2 ^ 63 ->
  cacheSize c < calcAllocAlignSize (devSize c) * 2 ^ 32 -> (forall h, storedHint c h = h) -> okCfg c.
Proof. intros A B C D. unfold okCfg. sp; auto. intros h _ H _. rewrite D. lia. Qed.
Lemma packed_okCfg c : valid_config (devSize c) (cacheSize c) (regionSize c) = true -> devSize c < 2 ^ 63 ->
  cacheSize c < calcAllocAlignSize (devSize c) * 2 ^ 32 -> regionSize c <= 55157 * 512 ->
  (forall h h', packedSizeHint h = Some h' -> storedHint c h = h') -> okCfg c.
Proof.
  intros A B C D E. unfold okCfg. sp; auto. intros h H1 H2 H3.
  destruct (C28_packed_hint h H1 ltac:(lia)) as (h' & P & L & _). rewrite (E h h' P). split; auto.
  unfold packedSizeHint in P. destruct (sizeHintToExp h); [|discriminate]. unfold sizeExpToHint in P. cbv zeta in P.
  destruct (N.ltb_spec (trunc (powExp (N.to_nat n))) U16); [|discriminate]. injection P as <-. exact H.
Qed.
