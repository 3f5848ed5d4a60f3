(** * Lifetime: waking up the waiters of a moved item. *)
From Coq Require Import List Arith Bool Lia.
Import ListNotations.
From Verif Require Import Lifetime_model Lifetime_proofs.

Definition same (f : tst -> nat) (l l' : list tst) := sm f l' = sm f l.
Definition same_all (l l' : list tst) : Prop := forall a,
  same (fun t => cn (thdls t) a) l l' /\
  same (fun t => cnt (lmov t) a) l l' /\ same (fun t => cnt (lxo t) a) l l' /\
  same (fun t => cnt (ldown t) a) l l' /\ same (fun t => cnt (lpend t) a) l l' /\
  same (fun t => cnt (lins t) a) l l' /\ same (fun t => cnt (lnl t) a) l l' /\
  same (fun t => cnt (lna t) a) l l' /\ same (fun t => cnt (lqf t) a) l l' /\
  same (fun t => cnt (lqt t) a) l l' /\ same (fun t => cnt (lqd t) a) l l' /\
  same (fun t => cnt (lqm t) a) l l'.
Definition same_k (k : nat) (l l' : list tst) : Prop :=
  sm (waitk k) l' = 0 /\
  (forall j, j <> k -> sm (waitk j) l' = sm (waitk j) l) /\
  (forall j, sm (fun t => cntk (lmk t) j) l' = sm (fun t => cntk (lmk t) j) l).
Definition nowait (t : tst) : Prop := match t with FWait _ _ | OrWait _ _ => False | _ => True end.

Lemma same_all_cons t t' l l' : same_all l l' ->
  (forall a, cn (thdls t') a = cn (thdls t) a /\ cnt (lmov t') a = cnt (lmov t) a /\
     cnt (lxo t') a = cnt (lxo t) a /\ cnt (ldown t') a = cnt (ldown t) a /\
     cnt (lpend t') a = cnt (lpend t) a /\ cnt (lins t') a = cnt (lins t) a /\
     cnt (lnl t') a = cnt (lnl t) a /\ cnt (lna t') a = cnt (lna t) a /\
     cnt (lqf t') a = cnt (lqf t) a /\ cnt (lqt t') a = cnt (lqt t) a /\
     cnt (lqd t') a = cnt (lqd t) a /\ cnt (lqm t') a = cnt (lqm t) a) ->
  same_all (t :: l) (t' :: l').
Proof.
  intros H G a. specialize (H a). specialize (G a). unfold same in *. cbn [sm].
  dconj. repeat match goal with |- _ /\ _ => split end; congruence.
Qed.

Lemma sk_keep k t l l' : waitk k t = 0 -> same_k k l l' -> same_k k (t :: l) (t :: l').
Proof.
  intros W [A [B C]]. split; [|split]; cbn [sm]; intros; rewrite ?A, ?W; auto.
Qed.
Lemma sk_drop k t t' l l' : waitk k t = 1 -> (forall j, waitk j t' = 0) ->
  (forall j, j <> k -> waitk j t = 0) -> (forall j, cntk (lmk t') j = cntk (lmk t) j) ->
  same_k k l l' -> same_k k (t :: l) (t' :: l').
Proof.
  intros W W' Wj M [A [B C]]. split; [|split]; cbn [sm]; intros; rewrite ?A, ?W', ?M; auto.
  rewrite Wj; auto.
Qed.

Definition idlek (t' : tst) : Prop := (forall j, waitk j t' = 0) /\ forall j, cntk (lmk t') j = 0.
Definition H_disj (t : tst) (k : nat) : Prop := forall t', idlek t' ->
  waitk k t = 1 /\ (forall j, waitk j t' = 0) /\
  (forall j, j <> k -> waitk j t = 0) /\ (forall j, cntk (lmk t') j = cntk (lmk t) j).
Lemma disj_F w k : H_disj (FWait w k) k.
Proof.
  intros t' [A B]. cbn [waitk lmk lmov cntk]. rewrite Nat.eqb_refl.
  split; [reflexivity|]. split; [exact A|]. split; [|exact B].
  intros j N. rewrite (proj2 (Nat.eqb_neq _ _)); auto.
Qed.
Lemma disj_O h k : H_disj (OrWait h k) k.
Proof.
  intros t' [A B]. cbn [waitk lmk lmov cntk]. rewrite Nat.eqb_refl.
  split; [reflexivity|]. split; [exact A|]. split; [|exact B].
  intros j N. rewrite (proj2 (Nat.eqb_neq _ _)); auto.
Qed.

Lemma wakeAll_spec maxRef k n : forall l r ovf l' r', wakeAll maxRef k n r ovf l = (l', r') ->
  r <= r' /\ same_all l l' /\ same_k k l l' /\
  (forall a, sm (fun t => cf (thdls t) a) l' = sm (fun t => cf (thdls t) a) l + (if ideq n a then r' - r else 0)) /\
  (forall a, sm (fun t => cnt (lresp t) a) l <= sm (fun t => cnt (lresp t) a) l') /\
  (forall j t, nth_error l j = Some t -> nowait t -> nth_error l' j = Some t) /\
  (forall j t, nth_error l' j = Some t -> wft t \/ nth_error l j = Some t).
Proof.
  induction l as [|t l IH]; intros r ovf l' r' H; cbn [wakeAll] in H.
  - injection H as <- <-. split; [lia|]. split; [intros a; repeat split|].
    split; [repeat split; intros; reflexivity|].
    split; [intros; cbn; destruct (ideq n a); lia|]. split; [intros; cbn; lia|].
    split; intros [] ?; cbn; discriminate.
  - assert (forall r1 o1 q' r1', wakeAll maxRef k n r1 o1 l = (q', r1') ->
       forall t', r <= r1 -> 
       (forall a, cn (thdls t') a = cn (thdls t) a /\ cnt (lmov t') a = cnt (lmov t) a /\
     cnt (lxo t') a = cnt (lxo t) a /\ cnt (ldown t') a = cnt (ldown t) a /\
     cnt (lpend t') a = cnt (lpend t) a /\ cnt (lins t') a = cnt (lins t) a /\
     cnt (lnl t') a = cnt (lnl t) a /\ cnt (lna t') a = cnt (lna t) a /\
     cnt (lqf t') a = cnt (lqf t) a /\ cnt (lqt t') a = cnt (lqt t) a /\
     cnt (lqd t') a = cnt (lqd t) a /\ cnt (lqm t') a = cnt (lqm t) a) ->
       ((t' = t /\ waitk k t = 0) \/ (waitk k t = 1 /\ (forall j, waitk j t' = 0) /\
          (forall j, j <> k -> waitk j t = 0) /\ (forall j, cntk (lmk t') j = cntk (lmk t) j))) ->
       (forall a, cf (thdls t') a = cf (thdls t) a + (if ideq n a then r1 - r else 0)) ->
       (forall a, cnt (lresp t) a <= cnt (lresp t') a) ->
       (nowait t -> t' = t) -> (wft t' \/ t' = t) ->
       (t' :: q', r1') = (l', r') ->
       r <= r' /\ same_all (t :: l) l' /\ same_k k (t :: l) l' /\
  (forall a, sm (fun t => cf (thdls t) a) l' = sm (fun t => cf (thdls t) a) (t :: l) + (if ideq n a then r' - r else 0)) /\
  (forall a, sm (fun t => cnt (lresp t) a) (t :: l) <= sm (fun t => cnt (lresp t) a) l') /\
  (forall j t0, nth_error (t :: l) j = Some t0 -> nowait t0 -> nth_error l' j = Some t0) /\
  (forall j t0, nth_error l' j = Some t0 -> wft t0 \/ nth_error (t :: l) j = Some t0)) as K.
    { intros r1 o1 q' r1' HW t' Hr Hs Hk Hc Hp Hn Hwf E. injection E as <- <-.
      destruct (IH _ _ _ _ HW) as (A & B & C & D & F & G & G').
      split; [lia|]. split; [apply same_all_cons; auto|]. split.
      { destruct Hk as [[-> W]|(W & W' & Wj & M)]; [apply sk_keep|apply sk_drop]; auto. }
      split. { intros a. cbn [sm]. rewrite Hc, D. destruct (ideq n a); lia. }
      split. { intros a. cbn [sm]. specialize (F a). specialize (Hp a). lia. }
      split.
      { intros [|j] t0; cbn [nth_error]; intros E0 N0.
        - injection E0 as ->. rewrite Hn; auto.
        - apply G; auto. }
      { intros [|j] t0; cbn [nth_error]; intros E0.
        - injection E0 as <-. destruct Hwf as [W|W]; [auto|subst t'; auto].
        - apply G'; auto. } }
    destruct (wakeAll maxRef k n r ovf l) as [q1 r1] eqn:W1.
    destruct (wakeAll maxRef k n r true l) as [q2 r2] eqn:W2.
    destruct (wakeAll maxRef k n (S r) false l) as [q3 r3] eqn:W3.
    match goal with |- ?G => assert (waitk k t = 0 -> (t :: q1, r1) = (l', r') -> G) as Keep end.
    { intros Wt0. apply (K _ _ _ _ W1 t (le_n _)); auto 20.
      intros a. replace (r - r) with 0 by lia. destruct (ideq n a); lia. }
    assert (forall a, (if ideq n a then r - r else 0) = 0) as Z0 by (intros; replace (r-r) with 0 by lia; destruct (ideq n a); auto).
    assert (forall a, (if ideq n a then S r - r else 0) = b2n (ideq n a)) as Z1
      by (intros; replace (S r-r) with 1 by lia; destruct (ideq n a); auto).
    assert (forall w k', k' = k -> H_disj (FWait w k') k) as D1 by (intros w k' ->; apply disj_F).
    assert (forall h k', k' = k -> H_disj (OrWait h k') k) as D2 by (intros h k' ->; apply disj_O).
    destruct t; try (apply Keep; [reflexivity|exact H]).
    + destruct (k0 =? k) eqn:Ek.
      * apply Nat.eqb_eq in Ek. subst k0.
        destruct ovf; [|destruct (r =? maxRef)].
        -- apply (K _ _ _ _ W2 TIdle (le_n _)); [intros a; cbn; auto 20|right; apply D1; [auto|split; reflexivity]|
             intros a; rewrite Z0; cbn; lia|intros a; cbn; lia|intros []|left; exact I|exact H].
        -- apply (K _ _ _ _ W2 (THung None) (le_n _)); [intros a; cbn; auto 20|right; apply D1; [auto|split; reflexivity]|
             intros a; rewrite Z0; cbn; lia|intros a; cbn; lia|intros []|left; exact I|exact H].
        -- apply (K _ _ _ _ W3 (FGot w (n, false)) (le_S _ _ (le_n _)));
             [intros a; cbn; destruct (ideq n a); auto 20|right; apply D1; [auto|split; reflexivity]|
             intros a; rewrite Z1; cbn; destruct (ideq n a); cbn; lia|intros a; cbn; lia|intros []|left; exact I|exact H].
      * apply Keep; [cbn; rewrite Ek; reflexivity|exact H].
    + destruct (k0 =? k) eqn:Ek.
      * apply Nat.eqb_eq in Ek. subst k0. destruct h as [b nb].
        destruct ovf; [|destruct (r =? maxRef)].
        -- apply (K _ _ _ _ W2 (FGot WFind (b, nb)) (le_n _)); [intros a; cbn; auto 20|right; apply D2; [auto|split; reflexivity]|
             intros a; rewrite Z0; cbn; lia|intros a; cbn; lia|intros []|left; exact I|exact H].
        -- apply (K _ _ _ _ W2 (THung (Some (b, nb))) (le_n _)); [intros a; cbn; auto 20|right; apply D2; [auto|split; reflexivity]|
             intros a; rewrite Z0; cbn; lia|intros a; cbn; lia|intros []|left; exact I|exact H].
        -- apply (K _ _ _ _ W3 (OrRm (b, nb) (n, false)) (le_S _ _ (le_n _)));
             [intros a; cbn; destruct (ideq n a); cbn; auto 20|right; apply D2; [auto|split; reflexivity]|
             intros a; rewrite Z1; cbn; destruct (ideq n a), (ideq b a); cbn; lia|intros a; cbn; lia|intros []|left; exact I|exact H].
      * apply Keep; [cbn; rewrite Ek; reflexivity|exact H].
Qed.

Lemma wakeNull_spec k : forall l,
  let l' := map (wakeNull k) l in
  same_all l l' /\ same_k k l l' /\
  (forall a, sm (fun t => cf (thdls t) a) l' = sm (fun t => cf (thdls t) a) l) /\
  (forall a, sm (fun t => cnt (lresp t) a) l <= sm (fun t => cnt (lresp t) a) l') /\
  (forall j t, nth_error l j = Some t -> nowait t -> nth_error l' j = Some t) /\
  (forall j t, nth_error l' j = Some t -> wft t \/ nth_error l j = Some t).
Proof.
  induction l as [|t l IH]; cbv zeta; cbn [map].
  - split; [intros a; repeat split|].
    split; [repeat split; intros; reflexivity|].
    split; [reflexivity|]. split; [intros; cbn; lia|].
    split; intros [] ?; cbn; discriminate.
  - cbv zeta in IH. destruct IH as (B & C & D & F & G & G').
    assert ((wakeNull k t = t /\ waitk k t = 0) \/
            (H_disj t k /\ idlek (wakeNull k t) /\ ~ nowait t /\ wft (wakeNull k t) /\
             (thdls (wakeNull k t) = thdls t) /\ lmov t = [] /\ lmov (wakeNull k t) = [] /\
             lxo (wakeNull k t) = lxo t /\ ldown (wakeNull k t) = ldown t /\
             lpend (wakeNull k t) = lpend t /\ lins (wakeNull k t) = lins t /\
             lnl (wakeNull k t) = lnl t /\ lna (wakeNull k t) = lna t /\ lqf (wakeNull k t) = lqf t /\
             lqt (wakeNull k t) = lqt t /\ lqd (wakeNull k t) = lqd t /\ lqm (wakeNull k t) = lqm t /\
             lresp (wakeNull k t) = lresp t)) as K.
    { destruct t; try (left; split; reflexivity); cbn [wakeNull waitk]; destruct (k0 =? k) eqn:E; auto;
      apply Nat.eqb_eq in E; subst k0; right.
      - split; [apply disj_F|]. split; [split; reflexivity|]. split; [intros []|]. split; [exact I|].
        repeat split.
      - split; [apply disj_O|]. split; [split; reflexivity|]. split; [intros []|]. split; [exact I|].
        repeat split. }
    destruct K as [[K1 K2]|(K1&K2&K3&K4&T1&T2&T2'&T3&T4&T5&T6&T7&T8&T9&T10&T11&T12&T13)].
    + rewrite K1. split; [apply same_all_cons; auto 20|]. split; [apply sk_keep; auto|].
      split; [intros a; cbn [sm]; rewrite D; auto|].
      split; [intros a; cbn [sm]; specialize (F a); lia|].
      split; intros [|j] t0; cbn [nth_error]; auto.
    + split; [apply same_all_cons; auto|].
      { intros a. rewrite T1, T2, T2', T3, T4, T5, T6, T7, T8, T9, T10, T11, T12. auto 20. }
      split; [destruct (K1 _ K2) as (Q1&Q2&Q3&Q4); apply sk_drop; auto|].
      split; [intros a; cbn [sm]; rewrite D, T1; auto|].
      split; [intros a; cbn [sm]; specialize (F a); rewrite T13; lia|].
      split; intros [|j] t0; cbn [nth_error]; auto.
      * intros E; injection E as ->. intros X; contradiction.
      * intros E; injection E as <-. auto.
Qed.

(** The invariant after a wake-up. *)
Lemma P_wake al rf l c x ws mv ix mmv Hn Hf hn hf m xo d r p n nl na qf qt qd qm
              tra trf trd trp trm lt dl r' :
  P al rf l c x ws mv ix mmv Hn Hf hn hf m xo d r p n nl na qf qt qd qm tra trf trd trp trm lt ->
  r <= r' -> (dl = 0 \/ 1 <= hf) ->
  P al (rf + dl) l c x ws mv ix mmv Hn Hf hn (hf + dl) m xo d r' p n nl na qf qt qd qm tra trf trd trp trm lt.
Proof.
  unfold P. intros H R D. destruct D as [->|D].
  - rewrite !Nat.add_0_r. dconj. repeat match goal with |- _ /\ _ => split end; auto.
    match goal with H : l = 1 /\ c = 0 -> _ |- _ => rename H into G end.
    intros X. specialize (G X). clear - G R. lia.
  - dconj. assert (1 <= Hn + Hf + hn + hf) as U by (clear - D; lia).
    assert (x = 0) as X0.
    { match goal with H : 1 <= x -> _ |- _ => rename H into G end.
      match goal with H : x <= 1 |- _ => rename H into G1 end.
      destruct (Nat.eq_dec x 0) as [|N]; auto. assert (1 <= x) as N1 by (clear - N; lia). destruct (G N1) as [G2 _]. clear - G2 U. lia. }
    assert (rf <> 0) as R0 by (match goal with H : rf = _ |- _ => rewrite H end; clear - U; lia).
    assert (d = 0) as D0.
    { match goal with H : 1 <= d -> _ |- _ => rename H into G end.
      destruct (Nat.eq_dec d 0) as [|N]; auto. assert (1 <= d) as N1 by (clear - N; lia). destruct (G N1) as [G2 _]. contradiction. }
    assert (al <> 0) as A0.
    { match goal with H : al = 0 -> rf = 0 /\ _ |- _ => rename H into G end.
      intros E. destruct (G E) as [G' _]. contradiction. }
    assert (ws <> 0) as W0.
    { match goal with H : ws = 0 -> Hf = 0 /\ _ |- _ => rename H into G end.
      intros E. destruct (G E) as [_ G']. clear - G' D. lia. }
    repeat match goal with |- _ /\ _ => split end; auto;
    try (intros Z; exfalso; clear - Z X0 D0 A0 W0; lia).
    + clear H0. match goal with H : rf = _ |- _ => rewrite H end. clear. lia.
    + intros _. clear - R0. lia.
    + match goal with H : l = 1 /\ c = 0 -> _ |- _ => rename H into G end.
      intros X. specialize (G X). clear - G R. lia.
Qed.

Lemma wake_step s i t t' k n dl l' (itf : id -> item) :
  Inv s -> nth_error (thr s) i = Some t -> nowait t ->
  (forall a, itf a = if ideq n a then w_ref (it s a) (ref (it s a) + dl) else it s a) ->
  (dl = 0 \/ 1 <= cf (thdls t) n) ->
  same_all (thr s) l' -> same_k k (thr s) l' ->
  (forall a, sm (fun t => cf (thdls t) a) l' = sm (fun t => cf (thdls t) a) (thr s) + (if ideq n a then dl else 0)) ->
  (forall a, sm (fun t => cnt (lresp t) a) (thr s) <= sm (fun t => cnt (lresp t) a) l') ->
  (forall j t, nth_error (thr s) j = Some t -> nowait t -> nth_error l' j = Some t) ->
  (forall j t, nth_error l' j = Some t -> wft t \/ nth_error (thr s) j = Some t) ->
  (thdls t' = thdls t /\ lmov t' = lmov t /\ lxo t' = lxo t /\ ldown t' = ldown t /\
             lpend t' = lpend t /\ lins t' = lins t /\
             lnl t' = lnl t /\ lna t' = lna t /\ lqf t' = lqf t /\
             lqt t' = lqt t /\ lqd t' = lqd t /\ lqm t' = lqm t /\
             lresp t' = lresp t) ->
  (forall j, waitk j t' = 0) -> wft t' ->
  (forall j, j <> k -> cntk (lmk t) j = 0) ->
  Inv (set_t (mkState itf (nexti s) (idx s) (mm s) (hs s) l' (tr s)) i t').
Proof.
  intros Hi HN Hnw Hit Hdl SA SK SF SR SN SW (T1&T2&T3&T4&T5&T6&T7&T8&T9&T10&T11&T12&T13) WT WF MK.
  pose proof (SN _ _ HN Hnw) as HN'.
  split.
  - intros a. pose proof (iA s Hi a) as Ha.
    unfold IA, Sn, Sf, Sq in *. cbn [set_t it nexti idx mm hs thr tr] in *. rewrite ixn_ixv in *.
    destruct (SA a) as (A1&A2&A3&A4&A5&A6&A7&A8&A9&A10&A11&A12). unfold same in *.
    specialize (SF a). specialize (SR a).
    assert (forall f, f t' = f t -> sm f (updl l' i t') = sm f l') as U.
    { intros f E. pose proof (sm_updl f _ _ _ t' HN'). rewrite E in *. clear - H. lia. }
    rewrite !U by congruence.
    rewrite A1, A2, A3, A4, A5, A6, A7, A8, A9, A10, A11, A12, SF.
    rewrite !Hit. cbn [set_t idx ixn]. 
    destruct (ideq n a) eqn:En.
    + apply ideq_eq in En. subst a. unfold w_ref. cbn [alive ref lnk acc exc was mvd].
      eapply P_wake; [exact Ha|exact SR|]. destruct Hdl as [->|Hdl]; auto. right.
      pose proof (sm_ge (fun t => cf (thdls t) n) _ _ _ HN). cbn beta in *. lia.
    + rewrite <- (Nat.add_0_r (ref (it s a))).
      eapply P_wake; [exact Ha|exact SR|]. auto.
  - exact (iK s Hi).
  - cbn [set_t thr]. intros j u Hj. apply nth_updl in Hj. destruct Hj as [->|Hj]; auto.
    destruct (SW _ _ Hj) as [|Hj']; auto. apply (iT s Hi _ _ Hj').
  - intros j. unfold Wt, Mk. cbn [set_t thr].
    pose proof (sm_updl (waitk j) _ _ _ t' HN') as A.
    pose proof (sm_updl (fun t => cntk (lmk t) j) _ _ _ t' HN') as B. cbn beta in B.
    destruct SK as (S1&S2&S3). rewrite S3 in B. rewrite WT in A.
    destruct (Nat.eq_dec j k) as [->|Nj].
    + rewrite S1 in A. intros. exfalso. lia.
    + rewrite S2 in A by auto. rewrite MK in B by auto. pose proof (iW s Hi j) as W. unfold Wt, Mk in W.
      intros. assert (1 <= sm (waitk j) (thr s)) as X by lia. specialize (W X). lia.
  - exact (iB s Hi).
Qed.

Lemma r_SWake maxRef s i old n l r : Inv s -> nth_error (thr s) i = Some (SWake old n) ->
  wakeAll maxRef (ikey old) n (ref (it s n)) false (thr s) = (l, r) ->
  Inv (set_t (mkState (updf (it s) n (w_ref (it s n) r)) (nexti s) (idx s) (mm s) (hs s) l (tr s))
             i (RDec (n, false) (NFree old))).
Proof.
  intros Hi HN W. apply wakeAll_spec in W. destruct W as (A&B&C&D&F&G&G').
  apply (wake_step s i (SWake old n) _ (ikey old) n (r - ref (it s n))); auto; try exact I.
  - intros a. unfold updf. destruct (ideq n a) eqn:E; auto. apply ideq_eq in E. subst a. f_equal. lia.
  - right. cbn. rewrite ideq_refl. cbn. lia.
  - auto 20.
  - intros j N. cbn [lmk cntk]. rewrite (proj2 (Nat.eqb_neq _ _)); auto.
Qed.

Lemma r_SEvWake s i old : Inv s -> nth_error (thr s) i = Some (SEvWake old) ->
  Inv (set_t (mkState (it s) (nexti s) (idx s) (mm s) (hs s) (map (wakeNull (ikey old)) (thr s)) (tr s))
             i (SEvRel old)).
Proof.
  intros Hi HN. pose proof (wakeNull_spec (ikey old) (thr s)) as W. cbv zeta in W. destruct W as (B&C&D&F&G&G').
  apply (wake_step s i (SEvWake old) _ (ikey old) old 0); auto; try exact I.
  - intros a. destruct (ideq old a); auto. unfold w_ref. rewrite Nat.add_0_r. destruct (it s a); reflexivity.
  - intros a. rewrite D. destruct (ideq old a); lia.
  - auto 20.
  - intros j N. cbn [lmk cntk]. rewrite (proj2 (Nat.eqb_neq _ _)); auto.
Qed.
