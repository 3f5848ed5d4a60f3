(** References and active handles are accounted for. *)
From Coq Require Import List Arith ZArith Bool Lia.
Import ListNotations.
From Verif Require Import AsyncHdl_model AsyncHdl_spec AsyncHdl_proofs1 AsyncHdl_proofs2.

Section R.
Variable maxRef : nat.

Lemma refs_inc : forall (r : nat -> nat) j i, upd r j (S (r j)) i = r i + isI i (Some j).
Proof. intros. unfold upd, isI. destruct (Nat.eqb_spec i j); destruct (Nat.eqb_spec j i); subst; lia. Qed.
Lemma refs_dec : forall (r : nat -> nat) j i, 0 < r j -> upd r j (r j - 1) i + isI i (Some j) = r i.
Proof. intros. unfold upd, isI. destruct (Nat.eqb_spec i j); destruct (Nat.eqb_spec j i); subst; lia. Qed.
Lemma isI_none : forall i, isI i None = 0.
Proof. reflexivity. Qed.
Lemma isI_self : forall i, isI i (Some i) = 1.
Proof. intro. unfold isI. rewrite Nat.eqb_refl. reflexivity. Qed.

Definition Acc (s : state) : Prop :=
  (forall i, refs s i = owners s i) /\ (forall i, nitem s <= i -> refs s i = 0).

(** What a step from s to s' with events e does to the accounts. *)
Definition bal (s s' : state) (e : list event) : Prop :=
  (total s' + Z.of_nat (dropped e) + Z.of_nat (active s) = total s + Z.of_nat (active s'))%Z.
Definition good (s s' : state) (e : list event) : Prop :=
  Acc s' /\ bal s s' e /\ ~ In EBad e.

Lemma own_pos : forall s i, Acc s -> 0 < owners s i -> 0 < refs s i /\ i < nitem s.
Proof.
  intros s i (A & B) H. rewrite A. split; [assumption|].
  destruct (le_lt_dec (nitem s) i) as [L|L]; [|assumption]. specialize (B i L). rewrite A in B. lia.
Qed.

Lemma held_ctx : forall s c i, c < nc s -> octx (ctxs s c) i <= owners s i.
Proof. intros s c i H. unfold owners. pose proof (sumTo_ge (nc s) (fun d => octx (ctxs s d) i) c H). cbn beta in *. lia. Qed.
Lemma held_fet : forall s f i, f < nf s -> ofet (fetches s f) i <= owners s i.
Proof. intros s f i H. unfold owners. pose proof (sumTo_ge (nf s) (fun d => ofet (fetches s d) i) f H). cbn beta in *. lia. Qed.

(** Only the fields that matter. *)
Lemma owners_eq : forall s s' i, plain s' = plain s -> nc s' = nc s -> nf s' = nf s -> ctxs s' = ctxs s -> fetches s' = fetches s ->
  owners s' i = owners s i.
Proof. intros s s' i A B C D E. unfold owners. rewrite A, B, C, D, E. reflexivity. Qed.
Lemma active_eq : forall s s', plain s' = plain s -> nf s' = nf s -> fetches s' = fetches s -> active s' = active s.
Proof. intros s s' A B C. unfold active. rewrite A, B, C. reflexivity. Qed.

(** The general step: references change by inc/dec of one item, owners accordingly. *)
Lemma good_same : forall s s' e, Acc s -> (forall i, refs s' i = refs s i) -> nitem s' = nitem s ->
  (forall i, owners s' i = owners s i) -> bal s s' e -> ~ In EBad e -> good s s' e.
Proof.
  intros s s' e (A & B) E N O Z H. split; [|split; assumption]. split; intro i; rewrite ?E, ?N, ?O; auto.
Qed.
Lemma good_inc : forall s s' e j, Acc s -> 0 < owners s j -> refs s' = upd (refs s) j (S (refs s j)) -> nitem s' = nitem s ->
  (forall i, owners s' i = owners s i + isI i (Some j)) -> bal s s' e -> ~ In EBad e -> good s s' e.
Proof.
  intros s s' e j AC P E N O Z H. destruct (own_pos s j AC P) as (Q & Q'). destruct AC as (A & B). split; [|split; assumption].
  split; intro i; rewrite ?E, ?N, ?O, refs_inc, ?A; [reflexivity|]. intro L. rewrite <- A, (B i L). unfold isI.
  destruct (Nat.eqb_spec j i); [lia|reflexivity].
Qed.
Lemma good_dec : forall s s' e j, Acc s -> 0 < owners s j -> refs s' = upd (refs s) j (refs s j - 1) -> nitem s' = nitem s ->
  (forall i, owners s' i + isI i (Some j) = owners s i) -> bal s s' e -> ~ In EBad e -> good s s' e.
Proof.
  intros s s' e j AC P E N O Z H. destruct (own_pos s j AC P) as (Q & Q'). destruct AC as (A & B). split; [|split; assumption].
  split; intro i; rewrite ?E, ?N.
  - pose proof (refs_dec (refs s) j i Q). specialize (O i). rewrite <- A in O. lia.
  - intro L. pose proof (refs_dec (refs s) j i Q). rewrite (B i L) in *. lia.
Qed.

Definition notBad (e : event) : Prop := e <> EBad.

(** Destruction of a context. *)
Definition vi (x : ctx) (i : nat) : nat := match cval x with Some v => isI i v | None => 0 end.

Lemma refpos : forall s j, Acc s -> 0 < owners s j -> (refs s j =? 0) = false.
Proof. intros s j A P. destruct (own_pos s j A P). apply Nat.eqb_neq. lia. Qed.

Lemma dropped_app : forall a b, dropped (a ++ b) = dropped a + dropped b.
Proof. intros. unfold dropped. rewrite filter_app, app_length. reflexivity. Qed.
Lemma good_trans : forall s s1 s2 e1 e2, good s s1 e1 -> good s1 s2 e2 -> good s s2 (e1 ++ e2).
Proof.
  intros s s1 s2 e1 e2 (A1 & B1 & C1) (A2 & B2 & C2). split; [assumption|]. split.
  - unfold bal in *. rewrite dropped_app. lia.
  - intro I. apply in_app_or in I. tauto.
Qed.
Lemma good_refl : forall s, Acc s -> good s s [].
Proof. intros s A. split; [assumption|]. split; [unfold bal; cbn; lia|intros []]. Qed.

Lemma good_destroy : forall s s1 c s' e, Acc s -> refs s1 = refs s -> total s1 = total s -> nitem s1 = nitem s ->
  (forall i, owners s1 i + vi (ctxs s1 c) i = owners s i) -> active s1 = active s -> c < nc s1 ->
  chold (ctxs s1 c) = false -> cshare (ctxs s1 c) = false ->
  destroyCtx s1 c = (s', e) -> good s s' e.
Proof.
  intros s s1 c s' e AC E1 E2 E3 O E4 Hc H1 H2 D. unfold destroyCtx in D. unfold vi in O.
  assert (BR : forall i, octx (withFut (ctxs s1 c) UBroken) i = 0).
  { intro i. unfold octx, withFut; cbn. rewrite H1, H2. reflexivity. }
  assert (BP : cfut (ctxs s1 c) = UPend -> forall i, octx (ctxs s1 c) i = 0).
  { intros X i. unfold octx. rewrite H1, H2, X. reflexivity. }
  destruct (cval (ctxs s1 c)) as [[j|]|] eqn:V.
  - assert (P : 0 < owners s j) by (rewrite <- O, isI_self; lia).
    pose proof (refpos s j AC P) as RP. rewrite <- E1 in RP. unfold decRef in D. cbn [refs adjust setTotal] in D. rewrite RP in D. cbn in D.
    destruct (cfut (ctxs s1 c)) eqn:U; inversion D; subst s' e; clear D;
      (eapply good_dec with (j := j); [assumption|exact P|cbn; rewrite E1; reflexivity|cbn; assumption| | |]);
      try solve [intros [X|[]]; discriminate]; try solve [intros []]; try (unfold bal; cbn; rewrite E2, <- E4; unfold active; cbn; lia).
    2:{ intro i. specialize (O i).
        match goal with |- owners (setCtx ?t c _) i + _ = _ => pose proof (owners_ctx t c (withFut (ctxs s1 c) UBroken) i Hc) as X; cbn [ctxs setTotal setRefs adjust] in X; rewrite BR, (BP eq_refl) in X;
            assert (Y : owners t i = owners s1 i) by (apply owners_eq; reflexivity) end. lia. }
    all: intro i; specialize (O i); rewrite <- O; f_equal; apply owners_eq; reflexivity.
  - assert (O' : forall i, owners s1 i = owners s i) by (intro i; rewrite <- O; unfold isI; lia). clear O.
    destruct (cfut (ctxs s1 c)) eqn:U; inversion D; subst s' e; clear D;
      (eapply good_same; [assumption|cbn; intro; rewrite E1; reflexivity|cbn; assumption| | |]); auto;
      try solve [intros [X|[]]; discriminate]; try (unfold bal; cbn; rewrite E2, <- E4; unfold active; cbn; lia).
    intro i. specialize (O' i). pose proof (owners_ctx s1 c (withFut (ctxs s1 c) UBroken) i Hc) as X. rewrite BR, (BP eq_refl) in X. lia.
  - assert (O' : forall i, owners s1 i = owners s i) by (intro i; rewrite <- O; lia). clear O.
    destruct (cfut (ctxs s1 c)) eqn:U; inversion D; subst s' e; clear D;
      (eapply good_same; [assumption|cbn; intro; rewrite E1; reflexivity|cbn; assumption| | |]); auto;
      try solve [intros [X|[]]; discriminate]; try solve [intros [X|[X|[]]]; discriminate]; try (unfold bal; cbn; rewrite E2, <- E4; unfold active; cbn; lia).
    intro i. specialize (O' i). pose proof (owners_ctx s1 c (withFut (ctxs s1 c) UBroken) i Hc) as X. rewrite BR, (BP eq_refl) in X. lia.
Qed.

Lemma good_letGo : forall s c s' e, Acc s -> c < nc s -> chold (ctxs s c) = true -> letGo s c = (s', e) -> good s s' e.
Proof.
  intros s c s' e AC Hc Ho L. unfold letGo in L.
  destruct (cshare (ctxs s c)) eqn:S.
  - inversion L; subst s' e; clear L. eapply good_same; auto; try (unfold bal; cbn; unfold active; cbn; lia).
    intro i. pose proof (owners_ctx s c (withHold (ctxs s c) false) i Hc) as X.
    assert (Y : octx (withHold (ctxs s c) false) i = octx (ctxs s c) i) by (unfold octx; cbn; rewrite Ho, S; reflexivity). lia.
  - eapply good_destroy; [exact AC| | | | | | | | |exact L]; try reflexivity; try assumption.
    + intro i. pose proof (owners_ctx s c (withHold (ctxs s c) false) i Hc) as X.
      assert (Y : octx (ctxs s c) i = octx (withHold (ctxs s c) false) i + vi (ctxs s c) i) by (unfold octx, vi; cbn; rewrite Ho, S; cbn; lia).
      assert (Z : vi (ctxs (setCtx s c (withHold (ctxs s c) false)) c) i = vi (ctxs s c) i) by (unfold setCtx; cbn; rewrite upd_same; reflexivity).
      lia.
    + unfold setCtx; cbn. rewrite upd_same. reflexivity.
    + unfold setCtx; cbn. rewrite upd_same. assumption.
Qed.

Lemma owners_both : forall s c y f g i, c < nc s -> f < nf s ->
  owners (setFetch (setCtx s c y) f g) i + octx (ctxs s c) i + ofet (fetches s f) i = owners s i + octx y i + ofet g i.
Proof.
  intros s c y f g i Hc Hf. pose proof (owners_ctx s c y i Hc). pose proof (owners_fetch (setCtx s c y) f g i Hf) as X.
  cbn [fetches setCtx] in X. lia.
Qed.
Lemma active_both : forall s c y f g, f < nf s ->
  active (setFetch (setCtx s c y) f g) + hfet (fetches s f) = active s + hfet g.
Proof.
  intros s c y f g Hf. pose proof (active_fetch (setCtx s c y) f g Hf) as X. cbn [fetches setCtx] in X.
  assert (Y : active (setCtx s c y) = active s) by reflexivity. lia.
Qed.

(** Changes of one fetch and one of its contexts, the rest of the state being like s. *)
Lemma good_move : forall s s' e t c y f g, Acc s -> c < nc s -> f < nf s ->
  plain t = plain s -> nc t = nc s -> nf t = nf s -> ctxs t = ctxs s -> fetches t = fetches s ->
  s' = setFetch (setCtx t c y) f g ->
  (forall i, refs t i = refs s i) -> nitem t = nitem s ->
  (forall i, octx y i + ofet g i = octx (ctxs s c) i + ofet (fetches s f) i) ->
  (total t + Z.of_nat (dropped e) + Z.of_nat (hfet (fetches s f)) = total s + Z.of_nat (hfet g))%Z ->
  ~ In EBad e -> good s s' e.
Proof.
  intros s s' e t c y f g AC Hc Hf T1 T2 T3 T4 T5 -> R N O B E.
  eapply good_same; auto.
  - intro i. assert (H2 : f < nf t) by congruence. assert (H1 : c < nc t) by congruence.
    pose proof (owners_both t c y f g i H1 H2) as X. rewrite T4, T5 in X.
    rewrite (owners_eq s t i T1 T2 T3 T4 T5) in X. specialize (O i). lia.
  - unfold bal. assert (H2 : f < nf t) by congruence. pose proof (active_both t c y f g H2) as X. rewrite T5 in X.
    rewrite (active_eq s t T1 T3 T5) in X. cbn [total setFetch setCtx]. lia.
Qed.

Lemma good_pc : forall s s' e t f g, Acc s -> f < nf s ->
  plain t = plain s -> nc t = nc s -> nf t = nf s -> ctxs t = ctxs s -> fetches t = fetches s ->
  s' = setFetch t f g ->
  (forall i, refs t i = refs s i) -> nitem t = nitem s ->
  (forall i, ofet g i = ofet (fetches s f) i) ->
  (total t + Z.of_nat (dropped e) + Z.of_nat (hfet (fetches s f)) = total s + Z.of_nat (hfet g))%Z ->
  ~ In EBad e -> good s s' e.
Proof.
  intros s s' e t f g AC Hf T1 T2 T3 T4 T5 -> R N O B E.
  assert (H2 : f < nf t) by congruence.
  eapply good_same; auto.
  - intro i. pose proof (owners_fetch t f g i H2) as X. rewrite T5 in X.
    rewrite (owners_eq s t i T1 T2 T3 T4 T5) in X. specialize (O i). lia.
  - unfold bal. pose proof (active_fetch t f g H2) as X. rewrite T5 in X.
    rewrite (active_eq s t T1 T3 T5) in X. cbn [total setFetch setCtx]. lia.
Qed.

Ltac nobad := cbn; intuition discriminate.
Ltac fields := try reflexivity; try assumption; try solve [nobad].

Lemma good_wake : forall s f s' e, WF s -> Acc s -> f < nf s -> wake maxRef s f = Some (s', e) -> good s s' e.
Proof.
  intros s f s' e W AC Hf K. pose proof (w_ok s W f Hf) as OK. unfold wake in K. unfold fetchOK in OK.
  destruct (fpcs (fetches s f)) as [|rest sb| |rest|] eqn:P; try discriminate.
  - destruct OK as (dn & Ew & Hd & Ho & R).
    destruct rest as [|c r].
    { inversion K; subst s' e; clear K.
      eapply good_pc with (t := s); [exact AC|exact Hf|..]; fields.
      - intro i. unfold ofet. rewrite P. reflexivity.
      - unfold hfet. rewrite P. cbn. lia. }
    destruct (headin s f dn c r W Hf Ew) as (Hc & Cf & Nd & Nr). destruct R as (Rr & Rc).
    assert (OWN : forall i, fit (fetches s f) = Some i -> 0 < owners s i).
    { intros i Fi. pose proof (held_fet s f i Hf) as X. unfold ofet in X. rewrite P, Fi in X. cbn [fholds] in X. rewrite isI_self in X. lia. }
    destruct sb as [|h b|h|].
    + assert (GO : forall p e, (p = FRun (c :: r) (SStore None false) \/ p = FRun (c :: r) (SStore None true)) -> e = [] ->
                 good s (setPc s f p) e).
      { intros p e0 Hp ->. eapply good_pc with (t := s); [exact AC|exact Hf|..]; fields.
        - intro i. unfold ofet. rewrite P. destruct Hp; subst; reflexivity.
        - unfold hfet. rewrite P. destruct Hp; subst; cbn; lia. }
      destruct (fover (fetches s f)) as [v|] eqn:O; [inversion K; subst s' e; apply GO; auto|].
      destruct (fit (fetches s f)) as [i|] eqn:Fi; [|inversion K; subst s' e; apply GO; auto].
      destruct (full maxRef s i) eqn:Fu.
      * inversion K; subst s' e; clear K. eapply good_pc with (t := s); [exact AC|exact Hf|..]; fields.
        -- intro k. unfold ofet; cbn. rewrite P. destruct r; reflexivity.
        -- unfold hfet; cbn. rewrite P. destruct r; cbn; lia.
      * specialize (OWN i eq_refl). unfold incRef in K. rewrite (refpos s i AC OWN) in K. inversion K; subst s' e; clear K.
        eapply good_inc with (j := i); [exact AC|exact OWN|..]; fields.
        -- intro k. unfold setPc.
           match goal with |- owners (setFetch ?t f ?g) k = _ => pose proof (owners_fetch t f g k Hf) as X; assert (Y : owners t k = owners s k) by (apply owners_eq; reflexivity); set (o1 := owners (setFetch t f g) k) in *; set (o2 := owners t k) in *; clearbody o1 o2 end.
           cbn [fetches setTotal setRefs fit fover fwait] in X. unfold ofet in X. rewrite P, Fi in X. cbn [fpcs fit fholds transit] in X. rewrite isI_none in X. lia.
        -- unfold bal, setPc.
           match goal with |- context [active (setFetch ?t f ?g)] => pose proof (active_fetch t f g Hf) as X; assert (Y : active t = active s) by reflexivity; set (o1 := active (setFetch t f g)) in *; set (o2 := active t) in *; clearbody o1 o2 end.
           cbn [fetches setTotal setRefs fit fover fwait] in X. unfold hfet in X. rewrite P, Fi in X. cbn in X. cbn [total setFetch setTotal dropped filter length]. unfold dropped; cbn [filter length]. lia.
    + destruct Rc as (Fr & _). destruct Fr as (F1 & F2 & F3 & F4 & F5). inversion K; subst s'; clear K.
      eapply good_move with (c := c) (f := f) (t := match h with Some _ => adjust s (-1) | None => s end)
        (y := withFlag (withVal (ctxs s c) (Some h)) b)
        (g := mkF (fwait (fetches s f)) (FRun (c :: r) (SCall h)) (fit (fetches s f)) (fover (fetches s f)));
        [exact AC|exact Hc|exact Hf|..]; try (destruct h; reflexivity); fields.
      * intro i. unfold octx, ofet; cbn. rewrite P, F1, F4. rewrite !orb_true_r. cbn. lia.
      * unfold hfet. rewrite P. destruct h; cbn; lia.
    + destruct Rc as (Ca & Oh). pose proof Ca as (C1 & C2 & C3 & C4 & C5 & C6).
      assert (GP : forall t e, plain t = plain s -> nc t = nc s -> nf t = nf s -> ctxs t = ctxs s -> fetches t = fetches s ->
                 (forall i, refs t i = refs s i) -> nitem t = nitem s -> (total t + Z.of_nat (dropped e) = total s)%Z -> ~ In EBad e ->
                 good s (setPc t f (FRun (c :: r) SPost)) e).
      { intros t e0 T1 T2 T3 T4 T5 T6 T7 T8 T9. eapply good_pc with (t := t); [exact AC|exact Hf|..]; fields.
        - intro i. unfold ofet. rewrite P, T5. reflexivity.
        - unfold hfet. rewrite P, T5. cbn. lia. }
      assert (OV : good s (overflow s f c r) [EOver f c]).
      { eapply good_pc with (t := s); [exact AC|exact Hf|..]; fields.
        - intro k. unfold ofet; cbn. rewrite P. destruct r; reflexivity.
        - unfold hfet; cbn. rewrite P. destruct r; cbn; lia. }
      assert (HI : forall i, h = Some i -> 0 < owners s i).
      { intros i ->. apply OWN. unfold okh in Oh. destruct (fover (fetches s f)); congruence. }
      destruct C6 as [F|[F|F]]; rewrite F in K.
      * inversion K; subst s' e; clear K. apply GP; fields. cbn. lia.
      * destruct h as [i|].
        -- destruct (full maxRef s i); [inversion K; subst s' e; exact OV|].
           specialize (HI i eq_refl). unfold incRef in K. rewrite (refpos s i AC HI) in K. inversion K; subst s' e; clear K.
           eapply good_inc with (j := i); [exact AC|exact HI|..]; fields.
           ++ intro k. unfold setPc.
              match goal with |- owners (setFetch (setCtx ?t c ?y) f ?g) k = _ => pose proof (owners_both t c y f g k Hc Hf) as X; assert (Y : owners t k = owners s k) by (apply owners_eq; reflexivity); set (o1 := owners (setFetch (setCtx t c y) f g) k) in *; set (o2 := owners t k) in *; clearbody o1 o2 end.
              cbn [fetches ctxs adjust setTotal setRefs setCtx fit fover fwait] in X. unfold ofet, octx in X. rewrite P, F in X.
              cbn [fpcs fit fholds transit cfut withFut chold cshare cval] in X. rewrite ?isI_none in X. lia.
           ++ unfold bal, setPc.
              match goal with |- context [active (setFetch (setCtx ?t c ?y) f ?g)] => pose proof (active_both t c y f g Hf) as X; assert (Y : active t = active s) by reflexivity; set (o1 := active (setFetch (setCtx t c y) f g)) in *; set (o2 := active t) in *; clearbody o1 o2 end.
              cbn [fetches adjust setTotal setRefs setCtx fit fover fwait] in X. unfold hfet in X. rewrite P in X. cbn in X.
              unfold dropped. cbn. lia.
        -- inversion K; subst s' e; clear K.
           eapply good_move with (c := c) (f := f) (t := s); [exact AC|exact Hc|exact Hf|..]; fields.
           ++ intro i. unfold octx, ofet; cbn. rewrite P, F. cbn. lia.
           ++ unfold hfet. cbn [fetches setCtx fpcs fit]. rewrite P. cbn. lia.
      * destruct h as [i|].
        -- destruct (full maxRef s i); [inversion K; subst s' e; exact OV|].
           specialize (HI i eq_refl). unfold incRef, decRef in K. rewrite (refpos s i AC HI) in K.
           cbn [refs adjust setTotal setRefs] in K. rewrite upd_same in K. cbn [Nat.eqb app] in K. inversion K; subst s' e; clear K.
           apply GP; fields.
           ++ intro k. cbn. unfold upd. destruct (Nat.eqb_spec k i); [subst; lia|reflexivity].
           ++ cbn. lia.
        -- inversion K; subst s' e; clear K. apply GP; fields. cbn. lia.
    + inversion K; subst s' e; clear K.
      eapply good_move with (c := c) (f := f) (t := s); [exact AC|exact Hc|exact Hf|..]; fields.
      * intro i. unfold octx, ofet; cbn. rewrite P. destruct r; cbn; lia.
      * unfold hfet. cbn [fetches setCtx fpcs fit]. rewrite P. destruct r; cbn; lia.
  - destruct (fit (fetches s f)) as [i|] eqn:Fi.
    + assert (OWN : 0 < owners s i).
      { pose proof (held_fet s f i Hf) as X. unfold ofet in X. rewrite P, Fi in X. cbn [fholds] in X. rewrite isI_self in X. lia. }
      unfold decRef in K. rewrite (refpos s i AC OWN) in K. inversion K; subst s' e; clear K.
      eapply good_dec with (j := i); [exact AC|exact OWN|..]; fields.
      * intro k. unfold setPc.
        match goal with |- owners (setFetch ?t f ?g) k + _ = _ => pose proof (owners_fetch t f g k Hf) as X; assert (Y : owners t k = owners s k) by (apply owners_eq; reflexivity); set (o1 := owners (setFetch t f g) k) in *; set (o2 := owners t k) in *; clearbody o1 o2 end.
        cbn [fetches setTotal setRefs fit fover fwait] in X. unfold ofet in X. rewrite P, Fi in X. cbn [fpcs fit fholds transit] in X. rewrite ?isI_none in X. lia.
      * unfold bal, setPc.
        match goal with |- context [active (setFetch ?t f ?g)] => pose proof (active_fetch t f g Hf) as X; assert (Y : active t = active s) by reflexivity; set (o1 := active (setFetch t f g)) in *; set (o2 := active t) in *; clearbody o1 o2 end.
        cbn [fetches setTotal setRefs fit fover fwait] in X. unfold hfet in X. rewrite P, Fi in X. cbn in X. unfold dropped. cbn. lia.
    + inversion K; subst s' e; clear K. eapply good_pc with (t := s); [exact AC|exact Hf|..]; fields.
      * intro i. unfold ofet. rewrite P. cbn. rewrite Fi. reflexivity.
      * unfold hfet. rewrite P. cbn. rewrite Fi. cbn. lia.
  - destruct rest as [|c r].
    { inversion K; subst s' e; clear K. eapply good_pc with (t := s); [exact AC|exact Hf|..]; fields.
      - intro i. unfold ofet. rewrite P. reflexivity.
      - unfold hfet. rewrite P. cbn. lia. }
    destruct OK as (dn & Ew & Hd & Hr). destruct (headin s f dn c r W Hf Ew) as (Hc & Cf & Nd & Nr).
    destruct (Hr c (or_introl eq_refl)) as (_ & Sh).
    destruct (chold (ctxs s c)) eqn:CH.
    + inversion K; subst s' e; clear K.
      eapply good_move with (c := c) (f := f) (t := s); [exact AC|exact Hc|exact Hf|..]; fields.
      * intro i. unfold octx, ofet; cbn. rewrite P, CH, Sh. cbn. lia.
      * unfold hfet. cbn [fetches setCtx fpcs fit]. rewrite P. cbn. lia.
    + inversion K as [D]; clear K.
      eapply good_destroy; [exact AC| | | | | | | | |exact D]; try reflexivity; try assumption.
      * intro i. unfold setPc.
        match goal with |- owners (setFetch (setCtx ?t c ?y) f ?g) i + _ = _ => pose proof (owners_both t c y f g i Hc Hf) as X;
          assert (Z : vi (ctxs (setFetch (setCtx t c y) f g) c) i = vi y i) by (unfold setFetch, setCtx; cbn; rewrite upd_same; reflexivity); set (o1 := owners (setFetch (setCtx t c y) f g) i) in *; rewrite Z; clear Z; clearbody o1 end.
        cbn [fetches setCtx fit fover fwait] in X. unfold ofet, octx in X. rewrite P in X. cbn in X. rewrite CH, Sh in X. cbn in X.
        unfold vi; cbn. unfold octx, ofet in *. lia.
      * unfold setPc. match goal with |- active (setFetch (setCtx ?t c ?y) f ?g) = _ => pose proof (active_both t c y f g Hf) as X; set (o1 := active (setFetch (setCtx t c y) f g)) in *; clearbody o1 end.
        cbn [fetches setCtx fit fover fwait] in X. unfold hfet in X. rewrite P in X. cbn in X. cbn. lia.
      * unfold setPc, setFetch, setCtx; cbn. rewrite upd_same. assumption.
      * unfold setPc, setFetch, setCtx; cbn. rewrite upd_same. reflexivity.
Qed.
End R.
