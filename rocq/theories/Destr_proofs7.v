(** Insert and remove jobs, drops, evictCB; every step. *)
From Coq Require Import List Arith Bool Lia.
Import ListNotations.
From Verif Require Import Destr_model Destr_spec Destr_proofs Destr_proofs2 Destr_proofs3 Destr_proofs4 Destr_proofs5 Destr_proofs6.
Local Arguments Nat.ltb : simpl never.

Lemma occ_false s : occ s = false -> onFlash s = [].
Proof. unfold occ. destruct (onFlash s); auto; discriminate. Qed.
Lemma onFlash_nil s : onFlash s = [] -> content s = None /\ pend s = [].
Proof. unfold onFlash. destruct (pend s); [|discriminate]. cbn. destruct (content s); [discriminate|auto]. Qed.

(** an insert job runs *)
Lemma insjob_inv s d v q ok : Inv s d -> phase s = PIdle -> queue s = JIns v :: q ->
  Inv (if ok : bool then setPhase (setContent s (Some v)) PInsOk else setPhase s (PFail v)) d.
Proof.
  intros H Ph E. set (t := if ok then _ else _).
  assert (Rs : rest s = JIns v :: q) by (unfold rest; rewrite Ph; exact E).
  assert (Rt : rest t = q) by (unfold t, rest; destruct ok; cbn; rewrite E; reflexivity).
  destruct (i_sim _ _ H) as (f & Sf). rewrite Rs in Sf. cbn in Sf. destruct (occ s) eqn:Oc; [discriminate|].
  destruct (onFlash_nil s (occ_false s Oc)) as [Cn Pn].
  assert (Ot : occ t = ok). { unfold t, occ, onFlash. destruct ok; cbn; rewrite Pn, ?Cn; reflexivity. }
  assert (Pq : queue t = queue s) by (unfold t; destruct ok; reflexivity).
  assert (Ct : cur t = [v]). { unfold t, cur, cbs, onFlash. destruct ok; cbn; rewrite Pn, ?Cn; reflexivity. }
  assert (Cs : cur s = []). { unfold cur, cbs, onFlash. rewrite Ph, Pn, Cn. reflexivity. }
  assert (Mk : marked s = false). { destruct (marked s) eqn:M; auto. destruct (i_mark _ _ H M) as ((w & X) & _). congruence. }
  assert (Ps : pins s = v :: insIds q) by (unfold pins; rewrite Rs; reflexivity).
  assert (Pt : pins t = insIds q) by (unfold pins; rewrite Rt; reflexivity).
  assert (St : forall f, sim true q = Some f -> exists g, sim (occ t) q = Some g /\ (f = false -> g = false)).
  { intros g X. rewrite Ot. destruct ok; [exists g; auto|]. destruct (sim_mono _ _ X) as (g' & Y & Z). exists g'. split; [exact Y|]. intros ->. destruct g'; [symmetry; auto|auto]. }
  assert (S0 : sim false (JIns v :: q) = Some false -> sim (occ t) q = Some false).
  { intro X. cbn in X. destruct (St _ X) as (g & Y & Z). rewrite (Z eq_refl) in Y. exact Y. }
  assert (Hi : hasIns (queue s) = true) by (rewrite E; reflexivity).
  assert (Same : ram t = ram s /\ evs t = evs s /\ loose t = loose s /\ nextid t = nextid s /\ marked t = marked s /\ muts t = muts s /\ enabled t = enabled s /\ fill t = fill s /\ filling t = filling s /\ spurs t = spurs s) by (unfold t; destruct ok; cbn; tauto).
  destruct Same as (Q1 & Q2 & Q3 & Q4 & Q5 & Q6 & Q7 & Q8 & Q9 & Q10).
  assert (Nl : ~ liveFill t) by (unfold t, liveFill; destruct ok; cbn; tauto).
  assert (Pch : pinChain s -> pinChain t) by (unfold pinChain; rewrite Q6; auto).
  open_inv H. constructor.
  - rewrite Q7. exact Ien.
  - rewrite Pq. unfold t. destruct ok; cbn; eauto.
  - rewrite Ct. cbn. lia.
  - unfold t. destruct ok; cbn; [exact Logic.I|]. unfold onFlash. cbn. rewrite Pn, Cn. reflexivity.
  - rewrite Rt. destruct (St _ Sf) as (g & X & _). eauto.
  - rewrite Q6. exact Imut.
  - rewrite Q6, Q1. exact Iheld.
  - rewrite Q1, Q2. exact Iexcl.
  - intro w. specialize (Iown w). unfold hold, flashHold in *. unfold ramHold in *. rewrite Q1, Q2, Q3, Q4, Q5, Ct, Pt. rewrite Mk, Cs, Ps in *. cn. cbn [app] in *. cn. lia.
  - rewrite Q5. intro M. congruence.
  - intro L. contradiction.
  - intros w _. exact Nl.
  - intros w X. unfold t in X. destruct ok; discriminate.
  - rewrite Pq, Q8, Q9. exact Ifillq.
  - rewrite Q1, Pq. intros it X Y Z. destruct (Iclean it X Y Z) as (A & _). congruence.
  - rewrite Q1, Rt. intros it X Y Z. destruct (Isettled it X Y Z) as [A|A]; [left; auto|right]. rewrite Rs, Oc in A. apply S0. exact A.
  - rewrite Q1, Pq. intros X it Y Z. apply Pch. exact (Ilast X it Y Z).
  - rewrite Q1, Q2, Pq, Rt, Q6. intros e X Y. destruct (Itok e X Y) as (A & B & C & D). rewrite Rs, Oc in A. split; [apply S0; exact A|]. split; [exact B|]. split; [exact C|]. destruct (epcs e); auto; destruct D as [_ D]; congruence.
  - rewrite Q2. exact Iuniq.
  - rewrite Q6, Pq. exact Ichain.
  - rewrite Q6, Q2. exact Ilate.
  - rewrite Q2. exact Itokh.
Qed.

(** a remove job runs *)
Lemma remjob_inv s d q : Inv s d -> phase s = PIdle -> queue s = JRem :: q -> pend s = [] ->
  Inv (match content s with Some v => setPhase (setContent s None) (PRem v) | None => setPhase s PDone end) d.
Proof.
  intros H Ph E Pn. set (t := match content s with Some v => _ | None => _ end).
  assert (Rs : rest s = JRem :: q) by (unfold rest; rewrite Ph; exact E).
  assert (Rt : rest t = q) by (unfold t, rest; destruct (content s); cbn; rewrite E; reflexivity).
  assert (Fl : onFlash t = []). { unfold t, onFlash. destruct (content s) eqn:C; cbn; rewrite Pn, ?C; reflexivity. }
  assert (Ot : occ t = false) by (unfold occ; rewrite Fl; reflexivity).
  assert (Pq : queue t = queue s) by (unfold t; destruct (content s); reflexivity).
  assert (Ct : cur t = cur s). { unfold cur. rewrite Fl, app_nil_r. unfold t, cbs, onFlash. rewrite Ph, Pn. destruct (content s) eqn:C; cbn; reflexivity. }
  assert (Sm : sim (occ t) (rest t) = sim (occ s) (rest s)) by (rewrite Ot, Rt, Rs; reflexivity).
  assert (Pt : pins t = pins s) by (unfold pins; rewrite Rt, Rs; reflexivity).
  assert (Same : ram t = ram s /\ evs t = evs s /\ loose t = loose s /\ nextid t = nextid s /\ marked t = marked s /\ muts t = muts s /\ enabled t = enabled s /\ fill t = fill s /\ filling t = filling s /\ spurs t = spurs s) by (unfold t; destruct (content s); cbn; tauto).
  destruct Same as (Q1 & Q2 & Q3 & Q4 & Q5 & Q6 & Q7 & Q8 & Q9 & Q10).
  assert (Nl : ~ liveFill t) by (unfold t, liveFill; destruct (content s); cbn; tauto).
  assert (Pch : pinChain t = pinChain s) by (unfold pinChain; rewrite Q6; auto).
  open_inv H. constructor.
  - rewrite Q7. exact Ien.
  - rewrite Pq. unfold t. destruct (content s); cbn; eauto.
  - rewrite Ct. exact Icur.
  - rewrite Fl. destruct (phase t); auto.
  - rewrite Sm. exact Isim.
  - rewrite Q6. exact Imut.
  - rewrite Q6, Q1. exact Iheld.
  - rewrite Q1, Q2. exact Iexcl.
  - intro w. specialize (Iown w). unfold hold, flashHold in *. unfold ramHold in *. rewrite Q1, Q2, Q3, Q4, Q5, Ct, Pt. exact Iown.
  - rewrite Q5, Ct, Pt, Pq, Q6. intro M. destruct (Imark M) as (A & B & C & D). split; [exact A|]. split; [exact B|]. split; [|exact D]. unfold t. destruct (content s); exact Logic.I.
  - intro L. contradiction.
  - intros w _. exact Nl.
  - intros w X. unfold t in X. destruct (content s); discriminate.
  - rewrite Pq, Q8, Q9. exact Ifillq.
  - rewrite Q1, Pq, Q5, Ct. exact Iclean.
  - rewrite Q1, Sm, Pch. exact Isettled.
  - rewrite Q1, Pq, Pch. exact Ilast.
  - rewrite Q1, Q2, Pq, Sm, Q6, Ct. exact Itok.
  - rewrite Q2. exact Iuniq.
  - rewrite Q6, Pq. exact Ichain.
  - rewrite Q6, Q2. exact Ilate.
  - rewrite Q2. exact Itokh.
Qed.

(** evictCB begins: invalidateFill *)
Lemma fillInval_inv s d p : Inv s d -> (exists v, phase s = PFail v /\ p = PFail2 v) \/ (exists v, phase s = PRem v /\ p = PRem2 v) \/ (phase s = p /\ lockFree s = true) ->
  forall pe, map fst pe = map fst (pend s) -> (pe = pend s \/ lockFree s = true) -> Inv (setPend (setPhase (invalidateFill s) p) pe) d.
Proof.
  intros H C pe Em Hpe. set (t := setPend (setPhase (invalidateFill s) p) pe).
  assert (Nl : ~ liveFill t). { unfold liveFill, t. cbn. destruct p as [| | | | | | |[w|]|w|w|]; auto; destruct (fill s); discriminate. }
  assert (Lk : forall w, p <> PLocked w). { intros w ->. destruct C as [(v & _ & X)|[(v & _ & X)|(X & Y)]]; try discriminate. exact (notLocked _ Y w X). }
  assert (R : rest t = rest s). { unfold rest, t. cbn. destruct C as [(v & X & ->)|[(v & X & ->)|(X & Y)]]; rewrite X; reflexivity. }
  assert (Fl : onFlash t = onFlash s). { unfold onFlash, t. cbn. rewrite Em. reflexivity. }
  assert (Cu : cur t = cur s). { unfold cur. rewrite Fl. f_equal. unfold cbs, t. cbn. destruct C as [(v & X & ->)|[(v & X & ->)|(X & Y)]]; rewrite X; reflexivity. }
  assert (Oc : occ t = occ s) by (unfold occ; rewrite Fl; reflexivity).
  assert (Pi : pins t = pins s) by (unfold pins; rewrite R; reflexivity).
  assert (Ho : hold t = hold s). { unfold hold, flashHold. rewrite Pi, Cu. reflexivity. }
  assert (Php : match phase s with PFail _ | PFail2 _ => False | _ => True end -> match p with PFail _ | PFail2 _ => False | _ => True end).
  { destruct C as [(v & X & ->)|[(v & X & ->)|(X & Y)]]; rewrite X; auto. }
  open_inv H. inv_goal; fold t.
  - cbn. destruct C as [(v & X & ->)|[(v & X & ->)|(X & Y)]]; rewrite X in Iph; try exact Iph.
  - rewrite Cu. exact Icur.
  - rewrite Fl. cbn. destruct C as [(v & X & ->)|[(v & X & ->)|(X & Y)]]; rewrite X in Irem; exact Irem.
  - rewrite Oc, R. exact Isim.
  - intro w. rewrite Ho. exact (Iown w).
  - rewrite Cu, Pi. intro M. destruct (Imark M) as (A & B & D & F). split; [exact A|]. split; [exact B|]. split; [exact (Php D)|exact F].
  - intro L. contradiction.
  - intros w _. exact Nl.
  - intros w X. exfalso. exact (Lk w X).
  - cbn. rewrite Ifillq. destruct (fill s); reflexivity.
  - rewrite Cu. exact Iclean.
  - rewrite Oc, R. exact Isettled.
  - rewrite Oc, R, Cu. exact Itok.
Qed.

(** flash drops the copy *)
Lemma drop_inv s d v : Inv s d -> content s = Some v -> Inv (setPend (setContent s None) (pend s ++ [(v, false)])) d.
Proof.
  intros H E. destruct (content_one s d v H E) as (Pn & Cb & Fl0). rewrite Pn. cbn [app]. set (t := setPend (setContent s None) [(v, false)]).
  assert (Fl : onFlash t = onFlash s) by (rewrite Fl0; reflexivity).
  assert (Cu : cur t = cur s) by (unfold cur; rewrite Fl; reflexivity).
  assert (Oc : occ t = occ s) by (unfold occ; rewrite Fl; reflexivity).
  assert (Ho : hold t = hold s). { unfold hold, flashHold. rewrite Cu. reflexivity. }
  open_inv H. inv_goal; fold t.
  - rewrite Cu. exact Icur.
  - rewrite Fl. exact Irem.
  - rewrite Oc. exact Isim.
  - intro w. rewrite Ho. exact (Iown w).
  - rewrite Cu. exact Imark.
  - rewrite Fl. exact Ifill.
  - intros w X. discriminate.
  - intros w X. rewrite Fl. destruct (Ilock w X) as (A & B & C & D & F). split; [exact A|]. split; [exact B|]. split; [intros y Y; discriminate|]. split; [exact D|exact F].
  - rewrite Cu. exact Iclean.
  - rewrite Oc. exact Isettled.
  - rewrite Oc, Cu. exact Itok.
Qed.

Lemma sim_noIns q : hasIns q = false -> sim false q = Some false.
Proof. unfold hasIns. induction q as [|[v| |] q IH]; cbn; auto; discriminate. Qed.

(** the copy is gone: evictCB decides what to do *)
Definition goneTo (s : state) (p : jphase) (r : option item) (m : bool) : state := setMarked (setRam (setPhase (setPend s []) p) r) m.
Lemma gone_inv s d v p r m d' :
  Inv s d -> cur s = [v] -> content s = None ->
  (phase s = PRem2 v /\ p = PDone) \/ (phase s = PFail2 v /\ p = PInsOk) \/ (phase s = p /\ pend s = [(v, true)]) ->
  (exists it, ram s = Some it /\ excl it = false /\ clean it = true /\ r = Some (mkItem (iid it) true true false) /\ m = marked s /\ d' = d)
  \/ (r = ram s /\ marked s = true /\ m = false /\ d' = d /\ (forall it, ram s = Some it -> excl it = false -> clean it = false))
  \/ (r = ram s /\ marked s = false /\ m = false /\ d' = d ++ [v] /\ (forall it, ram s = Some it -> excl it = false -> clean it = false)) ->
  Inv (goneTo s p r m) d'.
Proof.
  intros H Cs Cn C O. set (t := goneTo s p r m).
  assert (R : rest t = rest s). { unfold rest, t. cbn. destruct C as [(X & ->)|[(X & ->)|(X & Y)]]; rewrite X; reflexivity. }
  assert (Fl : onFlash t = []) by (unfold onFlash; cbn; rewrite Cn; reflexivity).
  assert (Ot : occ t = false) by (unfold occ; rewrite Fl; reflexivity).
  assert (Cb : cbs t = []).
  { unfold cbs. cbn. destruct C as [(X & ->)|[(X & ->)|(X & Y)]]; auto. unfold cur, onFlash, cbs in Cs. rewrite Y, Cn, X in Cs. destruct p; auto; discriminate. }
  assert (Cu : cur t = []) by (unfold cur; rewrite Cb, Fl; reflexivity).
  assert (Pi : pins t = pins s) by (unfold pins; rewrite R; reflexivity).
  assert (Sm : forall f, sim (occ s) (rest s) = Some f -> exists g, sim (occ t) (rest t) = Some g /\ (f = false -> g = false)).
  { intros f X. rewrite Ot, R. destruct (occ s); [|exists f; auto]. destruct (sim_mono _ _ X) as (g & Y & Z). exists g. split; [exact Y|]. intros ->. destruct g; [symmetry; auto|auto]. }
  assert (S0 : sim (occ s) (rest s) = Some false -> sim (occ t) (rest t) = Some false).
  { intro X. destruct (Sm _ X) as (g & Y & Z). rewrite (Z eq_refl) in Y. exact Y. }
  assert (Sn : hasIns (queue s) = false -> sim (occ t) (rest t) = Some false).
  { intro X. rewrite Ot, R. apply sim_noIns. unfold rest. destruct (phase s); auto; apply hasIns_tl; auto. }
  assert (Nl : ~ liveFill t). { intro L. unfold liveFill in L. cbn in L. destruct C as [(X & ->)|[(X & ->)|(X & Y)]]; try contradiction. apply (i_pinv _ _ H v Y). unfold liveFill. rewrite X. exact L. }
  assert (Lk : forall w, p <> PLocked w). { intros w ->. destruct C as [(X & Z)|[(X & Z)|(X & Y)]]; try discriminate. destruct (i_lock _ _ H w X) as (_ & _ & N & _). exact (N v Y). }
  assert (Mi : marked s = true -> pins s = []) by (intro M; exact (proj1 (proj2 (i_mark _ _ H M)))).
  assert (Mt : m = true -> False). { intros ->. destruct O as [(it & A & B & X & _ & M & _)|[(_ & _ & M & _)|(_ & _ & M & _)]]; try discriminate. destruct (i_clean _ _ H it A B X) as (_ & N & _). congruence. }
  assert (Er : forall x, r = Some x -> exists it, ram s = Some it /\ excl x = excl it /\ iid x = iid it /\ (excl x = false -> (x = it /\ clean x = false) \/ (clean x = true /\ evicted x = true /\ clean it = true /\ hasIns (queue s) = false)) /\ (excl x = true -> x = it)).
  { intros x X. destruct O as [(it & A & B & Y & Z & _)|[(A & _ & _ & _ & Z)|(A & _ & _ & _ & Z)]].
    - rewrite X in Z. inversion Z; subst x. exists it. cbn. split; [exact A|]. split; [auto|]. split; [reflexivity|]. split; [|discriminate]. intros _. right. destruct (i_clean _ _ H it A B Y) as (N & _). auto.
    - exists x. split; [congruence|]. split; [reflexivity|]. split; [reflexivity|]. split; [|auto]. intro W. left. split; [reflexivity|]. apply Z; congruence.
    - exists x. split; [congruence|]. split; [reflexivity|]. split; [reflexivity|]. split; [|auto]. intro W. left. split; [reflexivity|]. apply Z; congruence. }
  assert (Er' : forall it, ram s = Some it -> excl it = false -> exists x, r = Some x /\ excl x = false /\ iid x = iid it /\ clean x = clean it).
  { intros y Y1 Y2. destruct O as [(it & A & B & Y & -> & _)|[(-> & _)|(-> & _)]]; [|eauto|eauto]. rewrite Y1 in A. inversion A; subst. eexists. split; [reflexivity|]. cbn. auto. }
  open_inv H. constructor; fold t; try assumption; try (cbn; assumption).
  - cbn. destruct C as [(X & ->)|[(X & ->)|(X & Y)]]; rewrite X in Iph; exact Iph.
  - rewrite Cu. cbn. lia.
  - rewrite Fl. destruct (phase t); auto.
  - destruct Isim as (f & X). destruct (Sm _ X) as (g & Y & _). eauto.
  - cbn. destruct (muts s) as [|[| | | | | | |[|] ?|] [|m' l]]; auto.
    + destruct Iheld as (x & A & B & D). destruct (Er' x A D) as (y & Y1 & Y2 & Y3 & Y4). exists y. split; [exact Y1|]. split; congruence.
    + destruct Iheld as (x & A & B & D). destruct (Er' x A D) as (y & Y1 & Y2 & Y3 & Y4). exists y. split; [exact Y1|]. split; congruence.
    + destruct Iheld as (x & A & B & D). destruct (Er' x A D) as (y & Y1 & Y2 & Y3 & Y4). exists y. split; [exact Y1|]. split; congruence.
    + destruct Iheld as (x & A & B & D). destruct (Er' x A B) as (y & Y1 & Y2 & Y3 & Y4). exists y. split; [exact Y1|]. split; congruence.
  - intros x X Y. cbn in X. destruct (Er x X) as (it & A & _ & _ & _ & B). pose proof (B Y); subst it. exact (Iexcl x A Y).
  - intro w. specialize (Iown w). unfold hold, flashHold in *. rewrite Cu, Pi. unfold ramHold in *. cbn [ram t goneTo setMarked setRam evs loose marked setPhase setPend nextid] in *. rewrite Cs in Iown.
    destruct O as [(it & A & B & Y & -> & -> & ->)|[(-> & M & -> & -> & _)|(-> & M & -> & -> & _)]].
    + destruct (Iclean it A B Y) as (_ & M & Ci). rewrite Cs in Ci. destruct (evicted it) eqn:Ev; [discriminate|]. inversion Ci; subst v. rewrite A, B, Y, Ev, M in *. cbn in *. cn. lia.
    + pose proof (Mi M) as Pm. rewrite M in Iown. rewrite ?Pm in *. cbn in *. cn. lia.
    + rewrite M in *. cbn in *. cn. lia.
  - intro M. exfalso. exact (Mt M).
  - intro L. contradiction.
  - intros w _. exact Nl.
  - intros w X. exfalso. exact (Lk w X).
  - intros x X Y Z. cbn in X. destruct (Er x X) as (it & A & _ & _ & B & _). destruct (B Y) as [[B1 B2]|(B1 & B2 & B3 & B4)]; [congruence|]. split; [exact B4|]. split; [destruct m eqn:M; [exfalso; exact (Mt eq_refl)|reflexivity]|]. rewrite Cu, B2. reflexivity.
  - intros x X Y Z. cbn in X. destruct (Er x X) as (it & A & _ & _ & B & _). destruct (B Y) as [[B1 B2]|(B1 & B2 & B3 & B4)].
    + subst it. destruct (Isettled x A Y Z) as [W|W]; [left; exact W | right; exact (S0 W)].
    + right. exact (Sn B4).
  - intros L x X Y. cbn in X. destruct (Er x X) as (it & A & B0 & _ & B & _). apply (Ilast L it A). congruence.
  - intros e X Y. destruct (Itok e X Y) as (A & B & D & F). split; [exact (S0 A)|]. split; [exact B|]. split.
    + intros x W1 W2. cbn in W1. destruct (Er x W1) as (it & W3 & W4 & _). apply (D it W3). congruence.
    + destruct (epcs e); auto; destruct F as [F _]; congruence.
Qed.
