(** Invariant of the asynchronous handles. *)
From Coq Require Import List Arith ZArith Bool Lia.
Import ListNotations.
From Verif Require Import AsyncHdl_model AsyncHdl_spec.

Fixpoint sumTo (n : nat) (g : nat -> nat) : nat :=
  match n with O => 0 | S k => sumTo k g + g k end.

Lemma sumTo_ext : forall n g h, (forall i, i < n -> g i = h i) -> sumTo n g = sumTo n h.
Proof. induction n; intros g h H; simpl; [reflexivity|]. rewrite (IHn g h), (H n) by (auto with arith). reflexivity. Qed.

Lemma sumTo_change : forall n g h c, c < n -> (forall j, j <> c -> h j = g j) ->
  sumTo n h + g c = sumTo n g + h c.
Proof.
  induction n; intros g h c Hc H; [lia|]. simpl.
  destruct (Nat.eq_dec c n) as [->|N].
  - rewrite (sumTo_ext n h g) by (intros; apply H; lia). lia.
  - rewrite (H n) by lia. specialize (IHn g h c ltac:(lia) H). lia.
Qed.

Lemma sumTo_ge : forall n g c, c < n -> g c <= sumTo n g.
Proof.
  induction n; intros g c H; [lia|]. simpl. destruct (Nat.eq_dec c n) as [->|]; [lia|].
  specialize (IHn g c ltac:(lia)). lia.
Qed.

Lemma sumTo_0 : forall n g, (forall i, i < n -> g i = 0) -> sumTo n g = 0.
Proof. induction n; intros g H; simpl; [reflexivity|]. rewrite IHn, (H n) by auto with arith. reflexivity. Qed.

Lemma upd_same : forall A (g : nat -> A) i x, upd g i x i = x.
Proof. intros. unfold upd. rewrite Nat.eqb_refl. reflexivity. Qed.
Lemma upd_diff : forall A (g : nat -> A) i j x, j <> i -> upd g i x j = g j.
Proof. intros. unfold upd. destruct (Nat.eqb_spec j i); congruence. Qed.

(** ** Who owns references *)
Definition isI (i : nat) (v : option nat) : nat := match v with Some j => if j =? i then 1 else 0 | None => 0 end.
Definition some1 (v : option nat) : nat := match v with Some _ => 1 | None => 0 end.
Definition octx (x : ctx) (i : nat) : nat :=
  (if chold x || cshare x then match cval x with Some v => isI i v | None => 0 end else 0) +
  match cfut x with UHas v => isI i v | _ => 0 end.
Definition fholds (p : fpc) : bool := match p with FOpen | FRun _ _ | FRel => true | _ => false end.
Definition transit (p : fpc) : option nat := match p with FRun (_ :: _) (SStore h _) => h | _ => None end.
Definition ofet (x : fetch) (i : nat) : nat :=
  (if fholds (fpcs x) then isI i (fit x) else 0) + isI i (transit (fpcs x)).
Definition hfet (x : fetch) : nat := (if fholds (fpcs x) then some1 (fit x) else 0) + some1 (transit (fpcs x)).
Definition cnt (l : list nat) (i : nat) : nat := count_occ Nat.eq_dec l i.
Definition owners (s : state) (i : nat) : nat :=
  cnt (plain s) i + sumTo (nc s) (fun c => octx (ctxs s c) i) + sumTo (nf s) (fun f => ofet (fetches s f) i).
Definition active (s : state) : nat := length (plain s) + sumTo (nf s) (fun f => hfet (fetches s f)).

Lemma owners_ctx : forall s c x i, c < nc s ->
  owners (setCtx s c x) i + octx (ctxs s c) i = owners s i + octx x i.
Proof.
  intros s c x i H. unfold owners, setCtx; cbn [plain nc nf ctxs fetches].
  pose proof (sumTo_change (nc s) (fun d => octx (ctxs s d) i) (fun d => octx (upd (ctxs s) c x d) i) c H) as E.
  cbn beta in E. rewrite upd_same in E. specialize (E ltac:(intros; rewrite upd_diff by assumption; reflexivity)).
  lia.
Qed.
Lemma owners_fetch : forall s f x i, f < nf s ->
  owners (setFetch s f x) i + ofet (fetches s f) i = owners s i + ofet x i.
Proof.
  intros s f x i H. unfold owners, setFetch; cbn [plain nc nf ctxs fetches].
  pose proof (sumTo_change (nf s) (fun d => ofet (fetches s d) i) (fun d => ofet (upd (fetches s) f x d) i) f H) as E.
  cbn beta in E. rewrite upd_same in E. specialize (E ltac:(intros; rewrite upd_diff by assumption; reflexivity)).
  lia.
Qed.
Lemma active_fetch : forall s f x, f < nf s ->
  active (setFetch s f x) + hfet (fetches s f) = active s + hfet x.
Proof.
  intros s f x H. unfold active, setFetch; cbn [plain nc nf ctxs fetches].
  pose proof (sumTo_change (nf s) (fun d => hfet (fetches s d)) (fun d => hfet (upd (fetches s) f x d)) f H) as E.
  cbn beta in E. rewrite upd_same in E. specialize (E ltac:(intros; rewrite upd_diff by assumption; reflexivity)).
  lia.
Qed.
Lemma owners_plain : forall s l i, owners (setPlain s l) i + cnt (plain s) i = owners s i + cnt l i.
Proof. intros. unfold owners, setPlain; cbn [plain nc nf ctxs fetches]. lia. Qed.
Lemma active_plain : forall s l, active (setPlain s l) + length (plain s) = active s + length l.
Proof. intros. unfold active, setPlain; cbn [plain nf fetches]. lia. Qed.

Lemma cnt_app : forall a b i, cnt (a ++ b) i = cnt a i + cnt b i.
Proof. intros. unfold cnt. apply count_occ_app. Qed.
Lemma cnt_one : forall j i, cnt [j] i = isI i (Some j).
Proof. intros. unfold cnt. simpl. destruct (Nat.eq_dec j i); destruct (Nat.eqb_spec j i); congruence. Qed.
Lemma cnt_del : forall l k j i, nth_error l k = Some j -> cnt (firstn k l ++ skipn (S k) l) i + isI i (Some j) = cnt l i.
Proof.
  intros l k j i H. pose proof (firstn_skipn k l) as E.
  assert (S1 : skipn k l = j :: skipn (S k) l).
  { clear E. revert k H. induction l; intros [|k] H; simpl in *; try discriminate; [congruence|]. apply IHl. assumption. }
  rewrite <- E at 3. rewrite S1, !cnt_app. change (j :: skipn (S k) l) with ([j] ++ skipn (S k) l).
  rewrite cnt_app, cnt_one. lia.
Qed.
Lemma len_del : forall (l : list nat) k j, nth_error l k = Some j -> length (firstn k l ++ skipn (S k) l) + 1 = length l.
Proof.
  intros l k j H. rewrite app_length, firstn_length, skipn_length.
  assert (k < length l) by (apply nth_error_Some; congruence). lia.
Qed.

(** ** The invariant *)
Definition okv (x : fetch) (v : option nat) : Prop := v = fit x \/ (v = None /\ fover x <> None).
Definition early (u : fut) : Prop := u = UNone \/ u = UPend \/ u = UGone.

(** Life of a pending handle. *)
Definition freshC (x : ctx) : Prop :=
  cval x = None /\ cflag x = false /\ cposted x = false /\ cshare x = true /\ early (cfut x).
Definition valued (g : fetch) (x : ctx) : Prop :=
  exists v, cval x = Some v /\ (chold x = true -> okv g v) /\ (cflag x = true \/ fover g <> None).
Definition calledC (g : fetch) (h : option nat) (x : ctx) : Prop :=
  cval x <> None /\ (chold x = true -> cval x = Some h) /\ (cflag x = true \/ fover g <> None) /\
  cposted x = false /\ cshare x = true /\ early (cfut x).
Definition futok (g : fetch) (u : fut) : Prop :=
  match u with UHas v => okv g v | _ => True end.
Definition settledC (g : fetch) (x : ctx) : Prop :=
  valued g x /\ cfut x <> UPend /\ cfut x <> UBroken /\ futok g (cfut x).
Definition victimC (g : fetch) (c : nat) (x : ctx) : Prop :=
  fover g = Some c /\ cposted x = false /\ (cval x = None \/ valued g x) /\
  (forall v, cfut x <> UHas v) /\ cfut x <> UDone.
Definition doneC (g : fetch) (c : nat) (x : ctx) : Prop :=
  victimC g c x \/ (settledC g x /\ cposted x = true).

Definition okh (g : fetch) (h : option nat) : Prop := match fover g with None => h = fit g | Some _ => h = None end.
Definition goodH (g : fetch) (h : option nat) (b : bool) : Prop := okh g h /\ (b = true \/ fover g <> None).
Lemma okh_okv : forall g h, okh g h -> okv g h.
Proof. intros g h. unfold okh, okv. destruct (fover g); intro H; [right; split; [assumption|discriminate]|left; assumption]. Qed.

Definition fetchOK (s : state) (f : nat) : Prop :=
  let g := fetches s f in
  match fpcs g with
  | FOpen => fover g = None /\ forall c, In c (fwait g) -> freshC (ctxs s c)
  | FRun rest sb =>
      exists dn, fwait g = dn ++ rest /\
        (forall c, In c dn -> doneC g c (ctxs s c) /\ cshare (ctxs s c) = true) /\
        (forall c, fover g = Some c -> In c dn) /\
        match rest with
        | [] => True
        | c :: r =>
            (forall d, In d r -> freshC (ctxs s d)) /\
            match sb with
            | SClone => freshC (ctxs s c)
            | SStore h b => freshC (ctxs s c) /\ goodH g h b
            | SCall h => calledC g h (ctxs s c) /\ okh g h
            | SPost => settledC g (ctxs s c) /\ cposted (ctxs s c) = false /\ cshare (ctxs s c) = true
            end
        end
  | FRel => forall c, In c (fwait g) -> doneC g c (ctxs s c) /\ cshare (ctxs s c) = true
  | FDrop rest =>
      exists dn, fwait g = dn ++ rest /\
        (forall c, In c dn -> doneC g c (ctxs s c) /\ cshare (ctxs s c) = false) /\
        (forall c, In c rest -> doneC g c (ctxs s c) /\ cshare (ctxs s c) = true)
  | FDone => forall c, In c (fwait g) -> doneC g c (ctxs s c) /\ cshare (ctxs s c) = false
  end.

Record WF (s : state) : Prop := {
  w_map : forall f, fillmap s = Some f -> f < nf s /\ fpcs (fetches s f) = FOpen;
  w_map2 : forall f, f < nf s -> fpcs (fetches s f) = FOpen -> fillmap s = Some f;
  w_wait : forall f c, f < nf s -> (In c (fwait (fetches s f)) <-> c < nc s /\ cfetch (ctxs s c) = f);
  w_cf : forall c, c < nc s -> cfetch (ctxs s c) < nf s;
  w_nodup : forall f, f < nf s -> NoDup (fwait (fetches s f));
  w_ok : forall f, f < nf s -> fetchOK s f;
  w_blk : forall c, c < nc s -> cwait (ctxs s c) = true -> chold (ctxs s c) = true /\ cfut (ctxs s c) = UNone;
  w_item : forall f i, f < nf s -> fit (fetches s f) = Some i -> i < nitem s
}.

(** What users can do to a context. *)
Definition uev (x y : ctx) : Prop :=
  cfetch y = cfetch x /\ cposted y = cposted x /\ cshare y = cshare x /\ cflag y = cflag x /\
  (cval y = cval x \/ (chold y = false /\ cval x <> None /\ cval y = Some None)) /\
  (chold y = true -> chold x = true) /\
  (cfut y = cfut x \/ (cfut x = UNone /\ cfut y = UPend /\ cval x = None) \/
   (cfut x = UPend /\ cfut y = UGone) \/ ((exists v, cfut x = UHas v) /\ cfut y = UDone) \/
   (cfut x = UPend /\ cfut y = UBroken /\ cshare x = false)).

Lemma uev_fresh : forall x y, uev x y -> freshC x -> freshC y.
Proof.
  intros x y (E1 & E2 & E3 & E4 & E5 & E6 & E7) (F1 & F2 & F3 & F4 & F5).
  assert (V : cval y = None) by (destruct E5 as [E|(_ & E & _)]; congruence).
  unfold freshC, early in *.
  repeat split; try congruence.
  destruct E7 as [E|[(A & B & C)|[(A & B)|[((v & A) & B)|(A & B & C)]]]].
  - rewrite E. assumption.
  - right. left. assumption.
  - right. right. assumption.
  - destruct F5 as [F|[F|F]]; congruence.
  - congruence.
Qed.
Lemma uev_valued : forall g x y, uev x y -> valued g x -> valued g y.
Proof.
  intros g x y (E1 & E2 & E3 & E4 & E5 & E6 & E7) (v & V1 & V2 & V3).
  destruct E5 as [E|(E & _ & E')].
  - exists v. rewrite E, E4. auto.
  - exists None. rewrite E4. repeat split; [assumption| |assumption]. intro H; congruence.
Qed.
Lemma uev_settled : forall g x y, uev x y -> settledC g x -> settledC g y.
Proof.
  intros g x y U (V & F1 & F2 & F3). pose proof (uev_valued _ _ _ U V) as V'.
  destruct U as (E1 & E2 & E3 & E4 & E5 & E6 & E7). destruct V as (v & V1 & _).
  split; [assumption|].
  destruct E7 as [E|[(A & B & C)|[(A & B)|[((w & A) & B)|(A & B & C)]]]]; try congruence.
  - rewrite E. auto.
  - rewrite B. repeat split; discriminate.
Qed.
Lemma uev_called : forall g h x y, uev x y -> calledC g h x -> calledC g h y.
Proof.
  intros g h x y (E1 & E2 & E3 & E4 & E5 & E6 & E7) (C1 & C2 & C3 & C4 & C5 & C6).
  unfold calledC, early in *.
  split; [destruct E5 as [E|(_ & _ & E)]; congruence|].
  split; [intro H; destruct E5 as [E|(E & _)]; [rewrite E; auto|congruence]|].
  split; [destruct C3 as [C3|C3]; [left; congruence|right; assumption]|].
  split; [congruence|]. split; [congruence|].
  destruct E7 as [E|[(A & B & C)|[(A & B)|[((w & A) & B)|(A & B & C)]]]]; try congruence.
  - right. right. assumption.
  - destruct C6 as [F|[F|F]]; congruence.
Qed.
Lemma uev_victim : forall g c x y, uev x y -> victimC g c x -> victimC g c y.
Proof.
  intros g c x y U (V1 & V2 & V3 & V4 & V5).
  assert (W : cval y = None \/ valued g y).
  { destruct V3 as [V|V]; [|right; eapply uev_valued; eauto].
    destruct U as (_ & _ & _ & _ & [E|(_ & E & _)] & _); [left; congruence|congruence]. }
  destruct U as (E1 & E2 & E3 & E4 & E5 & E6 & E7).
  split; [assumption|]. split; [congruence|]. split; [assumption|].
  destruct E7 as [E|[(A & B & C)|[(A & B)|[((w & A) & B)|(A & B & C)]]]].
  - rewrite E. auto.
  - rewrite B. split; [intro|]; discriminate.
  - rewrite B. split; [intro|]; discriminate.
  - exfalso. eapply V4. eassumption.
  - rewrite B. split; [intro|]; discriminate.
Qed.
Lemma uev_done : forall g c x y, uev x y -> doneC g c x -> doneC g c y.
Proof.
  intros g c x y U [V|(S & P)]; [left; eapply uev_victim; eauto|right]. split; [eapply uev_settled; eauto|].
  destruct U as (_ & E & _). congruence.
Qed.

Lemma fetchOK_uev : forall s s' f, fetches s' f = fetches s f ->
  (forall c, In c (fwait (fetches s f)) -> uev (ctxs s c) (ctxs s' c)) -> fetchOK s f -> fetchOK s' f.
Proof.
  intros s s' f E U. unfold fetchOK. rewrite E. set (g := fetches s f) in *.
  assert (D : forall c b, In c (fwait g) -> doneC g c (ctxs s c) /\ cshare (ctxs s c) = b ->
              doneC g c (ctxs s' c) /\ cshare (ctxs s' c) = b).
  { intros c b I (A & B). split; [eapply uev_done; eauto|]. destruct (U c I) as (_ & _ & X & _). congruence. }
  destruct (fpcs g) as [|rest sb| |rest|].
  - intros (A & B). split; [assumption|]. intros c I. eapply uev_fresh; eauto.
  - intros (dn & A & B & C & R). exists dn. split; [assumption|].
    split; [intros c I; apply D; [rewrite A; apply in_or_app; auto|auto]|]. split; [assumption|].
    destruct rest as [|c r]; [exact I|]. destruct R as (R1 & R2).
    assert (Ic : In c (fwait g)) by (rewrite A; apply in_or_app; right; left; reflexivity).
    split.
    { intros d I. eapply uev_fresh; [apply U; rewrite A; apply in_or_app; right; right; assumption|auto]. }
    destruct sb; [eapply uev_fresh; eauto| | |].
    + destruct R2 as (R2 & R3). split; [eapply uev_fresh; eauto|assumption].
    + destruct R2 as (R2 & R3). split; [eapply uev_called; eauto|assumption].
    + destruct R2 as (R2 & R3 & R4). split; [eapply uev_settled; eauto|].
      destruct (U c Ic) as (_ & X & Y & _). split; congruence.
  - intros A c I. apply D; auto.
  - intros (dn & A & B & C). exists dn. split; [assumption|].
    split; intros c I; apply D; auto; rewrite A; apply in_or_app; auto.
  - intros A c I. apply D; auto.
Qed.

Lemma uev_refl : forall x, uev x x.
Proof. intro x. unfold uev. repeat split; auto. Qed.

Lemma fetchOK_same : forall s s' f, fetches s' f = fetches s f ->
  (forall c, In c (fwait (fetches s f)) -> ctxs s' c = ctxs s c) -> fetchOK s f -> fetchOK s' f.
Proof. intros s s' f E U. apply fetchOK_uev; [assumption|]. intros c I. rewrite U by assumption. apply uev_refl. Qed.

(** States that agree on fetches and contexts. *)
Definition alike (s s' : state) : Prop :=
  fillmap s' = fillmap s /\ nf s' = nf s /\ nc s' = nc s /\ nitem s' = nitem s /\
  fetches s' = fetches s /\ ctxs s' = ctxs s.
Definition alikeP (s s' : state) : Prop :=
  fillmap s' = fillmap s /\ nf s' = nf s /\ nc s' = nc s /\ nitem s' = nitem s /\
  (forall f, fetches s' f = fetches s f) /\ (forall c, ctxs s' c = ctxs s c).
Lemma WF_alikeP : forall s s', alikeP s s' -> WF s -> WF s'.
Proof.
  intros s s' (E1 & E2 & E3 & E4 & E5 & E6) W. destruct W as [W1 W2 W3 W4 W5 W6 W7 W8].
  constructor; rewrite ?E1, ?E2, ?E3, ?E4.
  - intro f. rewrite E5. auto.
  - intro f. rewrite E5. auto.
  - intros f c. rewrite E5, E6. auto.
  - intros c. rewrite E6. auto.
  - intro f. rewrite E5. auto.
  - intros f Hf. eapply fetchOK_same; [| |apply W6; eassumption]; intros; rewrite ?E5, ?E6; reflexivity.
  - intro c. rewrite E6. auto.
  - intros f i. rewrite E5. eauto.
Qed.
Lemma WF_alike : forall s s', alike s s' -> WF s -> WF s'.
Proof.
  intros s s' (E1 & E2 & E3 & E4 & E5 & E6). apply WF_alikeP. unfold alikeP. rewrite E1, E2, E3, E4, E5, E6. repeat split; reflexivity.
Qed.

Lemma WF_uev : forall s c y, WF s -> c < nc s -> uev (ctxs s c) y ->
  (cwait y = true -> chold y = true /\ cfut y = UNone) -> WF (setCtx s c y).
Proof.
  intros s c y W Hc U Hw. destruct W as [W1 W2 W3 W4 W5 W6 W7 W8].
  assert (CF : forall d, cfetch (upd (ctxs s) c y d) = cfetch (ctxs s d)).
  { intro d. destruct (Nat.eq_dec d c) as [->|N]; [rewrite upd_same; apply U|rewrite upd_diff by assumption; reflexivity]. }
  constructor; unfold setCtx; cbn [fillmap nf nc fetches ctxs nitem]; auto.
  - intros f d Hf. rewrite CF. apply W3. assumption.
  - intros d Hd. rewrite CF. auto.
  - intros f Hf. eapply fetchOK_uev; [| |apply W6; eassumption]; cbn [fetches ctxs]; [reflexivity|].
    intros d I. destruct (Nat.eq_dec d c) as [->|N]; [rewrite upd_same; assumption|rewrite upd_diff by assumption; apply uev_refl].
  - intros d Hd. destruct (Nat.eq_dec d c) as [->|N]; [rewrite upd_same; assumption|rewrite upd_diff by assumption; auto].
Qed.

(** A step of fetch f that touches at most one of its contexts. *)
Lemma WF_fetch : forall s f g, WF s -> f < nf s -> fwait g = fwait (fetches s f) ->
  (fpcs g = FOpen <-> fpcs (fetches s f) = FOpen) ->
  (forall i, fit g = Some i -> i < nitem s) ->
  fetchOK (setFetch s f g) f -> WF (setFetch s f g).
Proof.
  intros s f g W Hf Ew Eo Ei OK. destruct W as [W1 W2 W3 W4 W5 W6 W7 W8].
  constructor; unfold setFetch; cbn [fillmap nf nc fetches ctxs nitem]; auto.
  - intros k H. destruct (W1 k H) as (A & B). split; [assumption|].
    destruct (Nat.eq_dec k f) as [->|N]; [rewrite upd_same; apply Eo; assumption|rewrite upd_diff by assumption; assumption].
  - intros k Hk. destruct (Nat.eq_dec k f) as [->|N]; [rewrite upd_same; intro H; apply W2; [assumption|apply Eo; assumption]|rewrite upd_diff by assumption; auto].
  - intros k d Hk. destruct (Nat.eq_dec k f) as [->|N]; [rewrite upd_same, Ew; auto|rewrite upd_diff by assumption; auto].
  - intros k Hk. destruct (Nat.eq_dec k f) as [->|N]; [rewrite upd_same, Ew; auto|rewrite upd_diff by assumption; auto].
  - intros k Hk. destruct (Nat.eq_dec k f) as [->|N]; [exact OK|].
    eapply fetchOK_same; [| |apply W6; eassumption]; cbn [fetches ctxs setFetch]; [rewrite upd_diff by assumption; reflexivity|reflexivity].
  - intros k i Hk. destruct (Nat.eq_dec k f) as [->|N]; [rewrite upd_same; apply Ei|rewrite upd_diff by assumption; eauto].
Qed.

Lemma WF_both : forall s f g c y, WF s -> f < nf s -> fwait g = fwait (fetches s f) ->
  (fpcs g = FOpen <-> fpcs (fetches s f) = FOpen) ->
  (forall i, fit g = Some i -> i < nitem s) ->
  c < nc s -> cfetch (ctxs s c) = f -> cfetch y = f ->
  (cwait y = true -> chold y = true /\ cfut y = UNone) ->
  fetchOK (setFetch (setCtx s c y) f g) f -> WF (setFetch (setCtx s c y) f g).
Proof.
  intros s f g c y W Hf Ew Eo Ei Hc Cf Cy Hw OK. destruct W as [W1 W2 W3 W4 W5 W6 W7 W8].
  assert (CF : forall d, cfetch (upd (ctxs s) c y d) = cfetch (ctxs s d)).
  { intro d. destruct (Nat.eq_dec d c) as [->|N]; [rewrite upd_same; congruence|rewrite upd_diff by assumption; reflexivity]. }
  constructor; unfold setFetch, setCtx in *; cbn [fillmap nf nc fetches ctxs nitem] in *; auto.
  - intros k H. destruct (W1 k H) as (A & B). split; [assumption|].
    destruct (Nat.eq_dec k f) as [->|N]; [rewrite upd_same; apply Eo; assumption|rewrite upd_diff by assumption; assumption].
  - intros k Hk. destruct (Nat.eq_dec k f) as [->|N]; [rewrite upd_same; intro H; apply W2; [assumption|apply Eo; assumption]|rewrite upd_diff by assumption; auto].
  - intros k d Hk. rewrite CF. destruct (Nat.eq_dec k f) as [->|N]; [rewrite upd_same, Ew; auto|rewrite upd_diff by assumption; auto].
  - intros d Hd. rewrite CF. auto.
  - intros k Hk. destruct (Nat.eq_dec k f) as [->|N]; [rewrite upd_same, Ew; auto|rewrite upd_diff by assumption; auto].
  - intros k Hk. destruct (Nat.eq_dec k f) as [->|N]; [exact OK|].
    eapply fetchOK_same; [| |apply W6; eassumption]; cbn [fetches ctxs]; [rewrite upd_diff by assumption; reflexivity|].
    intros d I. apply W3 in I; [|assumption]. destruct I as (_ & I). apply upd_diff. intro X; subst d. congruence.
  - intros d Hd. destruct (Nat.eq_dec d c) as [->|N]; [rewrite upd_same; assumption|rewrite upd_diff by assumption; auto].
  - intros k i Hk. destruct (Nat.eq_dec k f) as [->|N]; [rewrite upd_same; apply Ei|rewrite upd_diff by assumption; eauto].
Qed.
