(** Proofs for C02: the interleaving invariant. *)
From Verif Require Import Bytes Refcount_model Refcount_spec Refcount_proofs.
Open Scope N_scope.

Definition shape (w : N) (h : list tid) (ow : list (tid * purpose)) : Prop :=
  match ow with
  | [] => marks (view w) 2 = false /\ refs (view w) = N.of_nat (length h)
  | [(_, Evicting)] => marks (view w) 2 = true /\ refs (view w) = 0 /\ h = []
  | [(_, Moving)] => marks (view w) 2 = true /\ refs (view w) = 1 /\ h = []
  | _ => False
  end.

Definition Inv (s : shared) : Prop :=
  word s < two32 /\ shape (word s) (holders (trace s)) (owners (trace s)) /\
  forall t o cur, pcs s t = InLoop o cur ->
    isRmw o = false /\ client (trace s) t o /\ cur < two32 /\ (o = ODec -> refs (view cur) <> 0).

Lemma in_remove_one t t' l : t <> t' -> In t l -> In t (remove_one t' l).
Proof.
  intros N. induction l as [|x l IH]; simpl; auto. intros [->|H].
  - destruct (Nat.eqb_spec t t'); [contradiction|left; auto].
  - destruct (Nat.eqb_spec x t'); [auto|right; auto].
Qed.
Lemma remove_one_length t l : In t l -> S (length (remove_one t l)) = length l.
Proof.
  induction l as [|x l IH]; simpl; [tauto|]. intros H.
  destruct (Nat.eqb_spec x t); [auto|]. destruct H as [->|H]; [contradiction|].
  simpl. rewrite IH; auto.
Qed.

Lemma shape_same w w' h ow :
  refs (view w) = refs (view w') -> marks (view w) 2 = marks (view w') 2 ->
  shape w h ow -> shape w' h ow.
Proof.
  unfold shape. intros -> ->. auto.
Qed.

Lemma owners_filter_self t p : filter (fun q => negb (Nat.eqb (fst q) t)) [(t, p) : tid * purpose] = [].
Proof. simpl. rewrite Nat.eqb_refl. reflexivity. Qed.

Lemma shape_single w h ow x : shape w h ow -> In x ow -> ow = [x].
Proof.
  destruct ow as [|[t p] [|y l]]; simpl; [tauto| |destruct p; tauto].
  intros _ [->|[]]. reflexivity.
Qed.

(** An installed update preserves the shape. *)
Lemma install_shape w h ow tr t o n r :
  w < two32 -> h = holders tr -> ow = owners tr -> shape w h ow -> client tr t o ->
  attemptOf o w = Install n r ->
  n < two32 /\ shape n (holders ((t, o, r) :: tr)) (owners ((t, o, r) :: tr)).
Proof.
  intros Hw Eh Eo Hs Hc Ha.
  assert (Hp : pre o (view w)).
  { destruct o; cbn [pre client] in *; auto; try lia.
    - subst ow. assert (E := shape_single _ _ _ _ Hs Hc). rewrite E in Hs. cbn in Hs. cbn [view refs]. lia.
    - subst ow. assert (E := shape_single _ _ _ _ Hs Hc). rewrite E in Hs. cbn in Hs. cbn [view refs]. lia. }
  destruct (apply_refines_l o w Hw Hp) as (A & B & C). unfold apply in *. rewrite Ha in *.
  cbn [fst snd] in *. split; [auto|]. destruct B as [B1 B2].
  assert (X : marks (view n) 2 = marks (fst (spec_apply o (view w))) 2) by (apply B2; lia).
  clear B2.
  destruct o; cbn [spec_apply] in *.
  - destruct (refs (view w) =? max_refs);
      [cbn [fst snd] in *; subst r; unfold attemptOf in Ha; cbv zeta in Ha;
       repeat match type of Ha with (if ?b then _ else _) = _ => destruct b end; try discriminate|].
    destruct (marks (view w) m_exclusive) eqn:M;
      [cbn [fst snd] in *; subst r; unfold attemptOf in Ha; cbv zeta in Ha;
       repeat match type of Ha with (if ?b then _ else _) = _ => destruct b end;
       destruct (refs (view w) =? 0); discriminate|].
    cbn [fst snd] in *. subst r. cbn [holders owners]. rewrite <- Eh, <- Eo.
    destruct ow as [|[t' []] [|? ?]]; cbn [shape] in *; try tauto.
    + destruct Hs as [H1 H2]. split.
      * rewrite X. exact M.
      * rewrite B1. cbn [set_refs refs length]. lia.
    + unfold m_exclusive in M. destruct Hs; congruence.
    + unfold m_exclusive in M. destruct Hs; congruence.
  - cbn [client] in Hc. rewrite <- Eh in Hc.
    destruct (refs (view w) =? 0) eqn:Z.
    { cbn [fst snd] in *; subst r. unfold attemptOf in Ha; cbv zeta in Ha.
       repeat match type of Ha with (if ?b then _ else _) = _ => destruct b end; discriminate. }
    cbn [fst snd] in *. subst r. cbn [holders owners]. rewrite <- Eh, <- Eo.
    apply N.eqb_neq in Z.
    destruct ow as [|[t' []] [|? ?]]; cbn [shape] in *; try tauto.
    + destruct Hs as [H1 H2]. split; [now rewrite X|]. rewrite B1. cbn [set_refs refs].
      pose proof (remove_one_length _ _ Hc). lia.
    + destruct Hs as (? & ? & E). rewrite E in Hc. destruct Hc.
  - destruct (marks (view w) m_linked) eqn:L; cbn [negb fst snd] in *;
    destruct (marks (view w) m_exclusive) eqn:M; cbn [negb fst snd] in *;
    destruct (refs (view w) =? 0) eqn:Z; cbn [negb fst snd] in *;
    try (subst r; unfold attemptOf in Ha; cbv zeta in Ha;
       repeat match type of Ha with (if ?b then _ else _) = _ => destruct b end; discriminate).
    subst r. cbn [holders owners]. rewrite <- Eh, <- Eo. apply N.eqb_eq in Z.
    unfold m_exclusive in M.
    destruct ow as [|[t' []] [|? ?]]; cbn [shape] in *; try tauto; try (destruct Hs; congruence).
    destruct Hs as [H1 H2]. rewrite B1. cbn [set_mark refs]. repeat split; auto.
    rewrite Z in H2. destruct h; [auto|cbn [length] in H2; lia].
  - cbn [fst snd] in *. subst r. cbn [holders owners]. rewrite <- Eh, <- Eo.
    cbn [client] in Hc. rewrite <- Eo in Hc. assert (E := shape_single _ _ _ _ Hs Hc).
    rewrite E in *. rewrite owners_filter_self. cbn [shape] in *. destruct Hs as (H1 & H2 & ->).
    split; [exact X|]. rewrite B1. cbn [set_mark refs length]. exact H2.
  - destruct (refs (view w) =? 0) eqn:Z; cbn [andb fst snd] in *;
    destruct (marks (view w) m_linked) eqn:L; cbn [andb negb fst snd] in *;
    destruct (marks (view w) m_exclusive) eqn:M; cbn [andb negb fst snd] in *;
    try (subst r; unfold attemptOf in Ha; cbv zeta in Ha;
       repeat match type of Ha with (if ?b then _ else _) = _ => destruct b end; discriminate).
    subst r. cbn [holders owners]. rewrite <- Eh, <- Eo. apply N.eqb_eq in Z.
    unfold m_exclusive in M.
    destruct ow as [|[t' []] [|? ?]]; cbn [shape] in *; try tauto; try (destruct Hs; congruence).
    destruct Hs as [H1 H2]. rewrite B1. cbn [set_mark set_refs refs]. repeat split; auto.
    rewrite Z in H2. destruct h; [auto|cbn [length] in H2; lia].
  - cbn [fst snd] in *. subst r. cbn [holders owners]. rewrite <- Eh, <- Eo.
    cbn [client] in Hc. rewrite <- Eo in Hc. assert (E := shape_single _ _ _ _ Hs Hc).
    rewrite E in *. rewrite owners_filter_self. cbn [shape] in *. destruct Hs as (H1 & H2 & ->).
    split; [exact X|]. rewrite B1. cbn [set_mark set_refs refs length]. rewrite H2. reflexivity.
  - cbn [fst snd] in *. subst r. cbn [holders owners]. rewrite <- Eh, <- Eo.
    cbn [client] in Hc. rewrite <- Eo in Hc. assert (E := shape_single _ _ _ _ Hs Hc).
    rewrite E in *. rewrite owners_filter_self. cbn [shape] in *. destruct Hs as (H1 & H2 & ->).
    split; [rewrite X; exact H1|]. split; [|auto]. rewrite B1. cbn [set_refs refs]. rewrite H2. reflexivity.
  - cbn [fst snd] in *. subst r. cbn [holders owners]. rewrite <- Eh, <- Eo.
    cbn [client] in Hc. refine (shape_same w n _ _ _ _ Hs); [symmetry; exact B1|].
    rewrite X. cbn [set_mark marks]. destruct (N.eqb_spec 2 (b - 18)); [lia|auto].
  - cbn [fst snd] in *. subst r. cbn [holders owners]. rewrite <- Eh, <- Eo.
    cbn [client] in Hc. refine (shape_same w n _ _ _ _ Hs); [symmetry; exact B1|].
    rewrite X. cbn [set_mark marks]. destruct (N.eqb_spec 2 (b - 18)); [lia|auto].
Qed.

(** Completion by [t] never revokes another thread's permission. *)
Lemma client_persist tr t t' o o' r : t <> t' -> client tr t o -> client ((t', o', r) :: tr) t o.
Proof.
  intros N H.
  assert (HH : In t (holders tr) -> In t (holders ((t', o', r) :: tr))).
  { intros I. destruct o', r; simpl; auto. now apply in_remove_one. }
  assert (HO : forall p, In (t, p) (owners tr) -> In (t, p) (owners ((t', o', r) :: tr))).
  { intros p I.
    assert (F : In (t, p) (filter (fun p0 : tid * purpose => negb (Nat.eqb (fst p0) t')) (owners tr))).
    { apply filter_In. split; auto. simpl. destruct (Nat.eqb_spec t t'); [contradiction|auto]. }
    destruct o'; try (destruct r; simpl; auto; fail);
      destruct r; try destruct ok; simpl; auto. }
  destruct o; cbn [client] in *; auto.
Qed.

Lemma stop_same_ghost tr t o cur r : attemptOf o cur = Stop r ->
  holders ((t, o, r) :: tr) = holders tr /\ owners ((t, o, r) :: tr) = owners tr.
Proof.
  unfold attemptOf.
  destruct o;
  repeat match goal with |- context [if ?b then _ else _] => destruct b end;
  intros H; inversion H; subst; auto.
Qed.

Lemma holder_refs s t : Inv s -> In t (holders (trace s)) -> refs (view (word s)) <> 0.
Proof.
  intros (_ & S & _) H. unfold shape in S.
  destruct (owners (trace s)) as [|[t' []] [|? ?]]; try tauto.
  - destruct S as [_ S]. rewrite S. destruct (holders (trace s)); [destruct H|cbn [length]; lia].
  - destruct S as (_ & _ & S). rewrite S in H. destruct H.
  - destruct S as (_ & _ & S). rewrite S in H. destruct H.
Qed.

Lemma setPc_same p t x : setPc p t x t = x.
Proof. unfold setPc. now rewrite Nat.eqb_refl. Qed.
Lemma setPc_other p t x t' : t' <> t -> setPc p t x t' = p t'.
Proof. unfold setPc. intros. destruct (Nat.eqb_spec t' t); [contradiction|auto]. Qed.

Lemma inv_step s s' : Inv s -> step client s s' -> Inv s'.
Proof.
  intros I St. pose proof I as (Hw & Hs & Hp).
  destruct St as [s t o n r P R L A | s t o P R L | s t o cur r P A | s t o cur n r P A E | s t o cur n r P A E].
  - destruct (install_shape _ _ _ (trace s) t o n r Hw eq_refl eq_refl Hs L A) as [H1 H2].
    split; [exact H1|]. split; [exact H2|]. cbn [pcs trace]. intros t' o' cur' P'.
    destruct (Hp t' o' cur' P') as (R1 & R2 & R3 & R4). repeat split; auto.
    apply client_persist; auto. intros ->. congruence.
  - split; [exact Hw|]. split; [exact Hs|]. cbn [pcs trace]. intros t' o' cur' P'.
    destruct (Nat.eq_dec t' t) as [->|n].
    + rewrite setPc_same in P'. inversion P'; subst. repeat split; auto.
      intros ->. cbn [client] in L. eapply holder_refs; eauto.
    + rewrite setPc_other in P' by auto. auto.
  - destruct (stop_same_ghost (trace s) t o cur r A) as [G1 G2].
    split; [exact Hw|]. cbn [word trace pcs]. split; [rewrite G1, G2; exact Hs|].
    intros t' o' cur' P'. destruct (Nat.eq_dec t' t) as [->|n].
    + rewrite setPc_same in P'. discriminate.
    + rewrite setPc_other in P' by auto. destruct (Hp t' o' cur' P') as (R1 & R2 & R3 & R4).
      repeat split; auto. now apply client_persist.
  - destruct (Hp t o cur P) as (R1 & R2 & R3 & R4). subst cur.
    destruct (install_shape _ _ _ (trace s) t o n r Hw eq_refl eq_refl Hs R2 A) as [H1 H2].
    split; [exact H1|]. split; [exact H2|]. cbn [pcs trace]. intros t' o' cur' P'.
    destruct (Nat.eq_dec t' t) as [->|nn].
    + rewrite setPc_same in P'. discriminate.
    + rewrite setPc_other in P' by auto. destruct (Hp t' o' cur' P') as (Q1 & Q2 & Q3 & Q4).
      repeat split; auto. now apply client_persist.
  - split; [exact Hw|]. split; [exact Hs|]. cbn [pcs trace word]. intros t' o' cur' P'.
    destruct (Nat.eq_dec t' t) as [->|nn].
    + rewrite setPc_same in P'. inversion P'; subst.
      destruct (Hp t o' cur P) as (R1 & R2 & R3 & R4). repeat split; auto.
      intros ->. cbn [client] in R2. eapply holder_refs; eauto.
    + rewrite setPc_other in P' by auto. auto.
Qed.

Lemma inv_init : Inv initShared.
Proof.
  split; [reflexivity|]. split; [split; reflexivity|]. intros. discriminate.
Qed.

Lemma inv_steps s s' : steps client s s' -> Inv s -> Inv s'.
Proof. induction 1 as [|s1 s2 s3 H IH St]; auto. intros I. apply (inv_step s2); auto. Qed.
Lemma inv_reachable s : reachable s -> Inv s.
Proof. intros R. eapply inv_steps; eauto. apply inv_init. Qed.

(** Where a local copy came from: a moment within the same call. *)
Definition since (t : tid) (s0 s : shared) : Prop :=
  reachable s0 /\ steps client s0 s /\
  exists mid, trace s = mid ++ trace s0 /\ forall e, In e mid -> fst (fst e) <> t.

Lemma loop_origin s : reachable s -> forall t o cur, pcs s t = InLoop o cur ->
  exists s0, since t s0 s /\ word s0 = cur /\ pcs s0 t = InLoop o cur.
Proof.
  unfold reachable. remember initShared as i eqn:Ei. induction 1 as [s|s1 s2 s3 R IH St]; subst.
  - intros. discriminate.
  - specialize (IH eq_refl). intros t o cur P.
    assert (R3 : reachable s3) by (eapply steps_trans; eauto).
    assert (Old : pcs s2 t = InLoop o cur ->
       (exists mid, trace s3 = mid ++ trace s2 /\ forall e, In e mid -> fst (fst e) <> t) ->
       exists s0, since t s0 s3 /\ word s0 = cur /\ pcs s0 t = InLoop o cur).
    { intros P2 (m & M1 & M2). destruct (IH t o cur P2) as (s0 & (A & B & mid & C & D) & E & F).
      exists s0. split; [|auto]. split; [auto|]. split; [eapply steps_trans; eauto|].
      exists (m ++ mid). split; [rewrite M1, C; apply app_assoc|].
      intros e He. apply in_app_or in He as [He|He]; auto. }
    assert (New : word s3 = cur -> exists s0, since t s0 s3 /\ word s0 = cur /\ pcs s0 t = InLoop o cur).
    { intros W. exists s3. split; [|subst cur; auto]. split; [exact R3|]. split; [constructor|].
      exists []. split; [auto|]. intros e []. }
    destruct St as [s t' o' n r P' R' L A | s t' o' P' R' L | s t' o' cur' r P' A | s t' o' cur' n r P' A E | s t' o' cur' n r P' A E];
      cbn [pcs] in P.
    + apply Old; auto. exists [(t', o', r)]. split; auto. intros e [<-|[]]. simpl. congruence.
    + destruct (Nat.eq_dec t t') as [->|nn].
      * rewrite setPc_same in P. inversion P. subst. now apply New.
      * rewrite setPc_other in P by auto. apply Old; auto. exists []. split; [reflexivity|]. intros e [].
    + destruct (Nat.eq_dec t t') as [->|nn].
      * rewrite setPc_same in P. discriminate.
      * rewrite setPc_other in P by auto. apply Old; auto. exists [(t', o', r)]. split; auto.
        intros e [<-|[]]. simpl. congruence.
    + destruct (Nat.eq_dec t t') as [->|nn].
      * rewrite setPc_same in P. discriminate.
      * rewrite setPc_other in P by auto. apply Old; auto. exists [(t', o', r)]. split; auto.
        intros e [<-|[]]. simpl. congruence.
    + destruct (Nat.eq_dec t t') as [->|nn].
      * rewrite setPc_same in P. inversion P. subst. now apply New.
      * rewrite setPc_other in P by auto. apply Old; auto. exists []. split; [reflexivity|]. intros e [].
Qed.

(** ** The statements *)

Lemma one_owner_l s : reachable s -> (length (owners (trace s)) <= 1)%nat.
Proof.
  intros R. destruct (inv_reachable _ R) as (_ & S & _). unfold shape in S.
  destruct (owners (trace s)) as [|[? []] [|? ?]]; simpl; try lia; tauto.
Qed.

Lemma owner_no_handles_l s : reachable s -> owners (trace s) <> [] -> holders (trace s) = [].
Proof.
  intros R. destruct (inv_reachable _ R) as (_ & S & _). unfold shape in S.
  destruct (owners (trace s)) as [|[? []] [|? ?]]; try tauto.
Qed.

Lemma count_exact_l s : reachable s ->
  getAccessRef (word s) = N.of_nat (length (holders (trace s))).
Proof.
  intros R. destruct (inv_reachable _ R) as (_ & S & _).
  destruct (accessors_l (word s)) as (_ & _ & _ & _ & _ & _ & ->). unfold shape in S.
  destruct (owners (trace s)) as [|[? []] [|? ?]]; try tauto.
  - destruct S as [-> ->]. reflexivity.
  - destruct S as (-> & -> & ->). reflexivity.
  - destruct S as (-> & -> & ->). reflexivity.
Qed.

Lemma status_exact_l s : reachable s ->
  (isMarkedForEviction (word s) = true <-> exists t, owners (trace s) = [(t, Evicting)]) /\
  (isMoving (word s) = true <-> exists t, owners (trace s) = [(t, Moving)]).
Proof.
  intros R. destruct (inv_reachable _ R) as (_ & S & _).
  destruct (accessors_l (word s)) as (_ & _ & _ & -> & -> & _ & _). unfold shape in S.
  destruct (owners (trace s)) as [|[t []] [|? ?]]; try tauto.
  - destruct S as [-> _]. simpl. split; (split; [discriminate|intros [? ?]; discriminate]).
  - destruct S as (-> & -> & _). simpl. split.
    + split; [exists t; auto|auto].
    + split; [discriminate|intros [? ?]; discriminate].
  - destruct S as (-> & -> & _). simpl. split.
    + split; [discriminate|intros [? ?]; discriminate].
    + split; [exists t; auto|auto].
Qed.

(** A step that completes a call. *)
Lemma complete_cases s s' t o r : step client s s' -> trace s' = (t, o, r) :: trace s ->
  (exists n, attemptOf o (word s) = Install n r /\ word s' = n /\ client (trace s) t o \/
   exists n, attemptOf o (word s) = Install n r /\ word s' = n /\ pcs s t = InLoop o (word s)) \/
  (exists cur, pcs s t = InLoop o cur /\ attemptOf o cur = Stop r /\ word s' = word s).
Proof.
  intros St E.
  assert (NE : forall (x : event) (l : list event), l <> x :: l).
  { intros x l H. apply (f_equal (@length _)) in H. simpl in H. lia. }
  destruct St as [s t' o' n r' P' R' L A | s t' o' P' R' L | s t' o' cur' r' P' A | s t' o' cur' n r' P' A X | s t' o' cur' n r' P' A X];
    cbn [trace word] in *; try (exfalso; eapply NE; exact E); inversion E; subst.
  - left. exists n. left. auto.
  - right. exists cur'. auto.
  - left. exists n. right. exists n. auto.
Qed.

Lemma no_acquire_l s s' t : reachable s -> step client s s' -> owners (trace s) <> [] ->
  trace s' <> (t, OInc, RIncOk) :: trace s.
Proof.
  intros R St O E. destruct (complete_cases _ _ _ _ _ St E) as [[n H]|(cur & P & A & W)].
  - assert (A : exists n, attemptOf OInc (word s) = Install n RIncOk) by (destruct H as [(A & _)|(m & A & _)]; eauto).
    clear H. destruct A as [m A].
    destruct (inv_reachable _ R) as (Hw & S & _). unfold attemptOf in A; cbv zeta in A.
    destruct (N.land (word s) kAccessRefMask =? kAccessRefMask); [discriminate|].
    rewrite bitSetIn_testbit in A by reflexivity. change kExclusive with 20 in A.
    assert (M : N.testbit (word s) 20 = true).
    { change (N.testbit (word s) 20) with (marks (view (word s)) 2). unfold shape in S.
      destruct (owners (trace s)) as [|[? []] [|? ?]]; try tauto. }
    rewrite M in A. discriminate.
  - unfold attemptOf in A; cbv zeta in A.
    repeat match type of A with context [if ?b then _ else _] => destruct b end; discriminate.
Qed.

Definition grants (o : rc_op) (r : rc_result) : Prop :=
  (o = OMarkForEviction /\ r = REvSuccess) \/ (o = OMarkMoving /\ r = RMark true).

Lemma grant_free_l s s' t o r : reachable s -> step client s s' ->
  trace s' = (t, o, r) :: trace s -> grants o r ->
  holders (trace s) = [] /\ owners (trace s) = [] /\ isInMMContainer (word s) = true.
Proof.
  intros R St E G. destruct (complete_cases _ _ _ _ _ St E) as [[n H]|(cur & P & A & W)].
  - assert (A : exists n, attemptOf o (word s) = Install n r) by (destruct H as [(A & _)|(m & A & _)]; eauto).
    clear H. destruct A as [m A].
    destruct (inv_reachable _ R) as (Hw & S & _).
    destruct (accessors_l (word s)) as (L & _). rewrite L.
    assert (X : marks (view (word s)) 2 = false /\ refs (view (word s)) = 0 /\ marks (view (word s)) 0 = true).
    { unfold attemptOf in A; cbv zeta in A. rewrite acc_eq, !bitSetIn_testbit in A by reflexivity.
      change kExclusive with 20 in A. change kLinked with 18 in A.
      cbn [view marks refs]. change (18 + 2) with 20. change (18 + 0) with 18.
      destruct G as [[-> ->]|[-> ->]].
      - destruct (N.testbit (word s) 18); [|discriminate]. destruct (N.testbit (word s) 20); [discriminate|].
        cbn [negb] in A. destruct (N.eqb_spec (word s mod 262144) 0); [auto|discriminate].
      - destruct (N.ltb_spec 0 (word s mod 262144)); [discriminate|].
        destruct (N.testbit (word s) 18); [|discriminate]. destruct (N.testbit (word s) 20); [discriminate|].
        repeat split; auto. lia. }
    destruct X as (X1 & X2 & X3). unfold shape in S. rewrite X1, X2 in S.
    destruct (owners (trace s)) as [|[? []] [|? ?]]; try tauto; try (destruct S; discriminate).
    destruct S as [_ S]. split; [|auto]. destruct (holders (trace s)); [auto|cbn [length] in S; lia].
  - exfalso. unfold attemptOf in A; cbv zeta in A. destruct G as [[-> ->]|[-> ->]];
    repeat match type of A with context [if ?b then _ else _] => destruct b end; discriminate.
Qed.

Definition failure (o : rc_op) (r : rc_result) : Prop :=
  match o, r with
  | OInc, RIncOk | ODec, RRef _ | OMarkForEviction, REvSuccess | OMarkMoving, RMark true
  | OMarkForEvictionWhenMoving, RMark true | OUnmarkForEviction, RRef _ | OUnmarkMoving, RRef _
  | OSetBit _, RVoid | OClearBit _, RVoid => False
  | _, _ => True
  end.

Lemma failed_unchanged_l s s' t o r : step client s s' ->
  trace s' = (t, o, r) :: trace s -> failure o r -> word s' = word s.
Proof.
  intros St E F. destruct (complete_cases _ _ _ _ _ St E) as [[n H]|(cur & P & A & W)]; auto.
  exfalso.
  assert (A : exists n, attemptOf o (word s) = Install n r) by (destruct H as [(A & _)|(m & A & _)]; eauto).
  clear H. destruct A as [m A]. unfold attemptOf in A; cbv zeta in A.
  destruct o; repeat match type of A with context [if ?b then _ else _] => destruct b end;
    inversion A; subst; exact F.
Qed.

(** Every completed call behaves as its atomic version at an instant inside the call. *)
Lemma linearised_l s s' t o r : reachable s -> step client s s' ->
  trace s' = (t, o, r) :: trace s ->
  exists s0, since t s0 s /\ snd (apply o (word s0)) = r /\
    (failure o r \/ (s0 = s /\ word s' = fst (apply o (word s0)))).
Proof.
  intros R St E. destruct (complete_cases _ _ _ _ _ St E) as [[n H]|(cur & P & A & W)].
  - assert (A : exists n, attemptOf o (word s) = Install n r /\ word s' = n)
      by (destruct H as [(A & B & _)|(m & A & B & _)]; eauto).
    clear H. destruct A as (m & A & B).
    exists s. split.
    { split; [auto|]. split; [constructor|]. exists []. split; [reflexivity|]. intros e []. }
    unfold apply. rewrite A. split; [auto|]. right. auto.
  - destruct (loop_origin _ R _ _ _ P) as (s0 & S & W0 & P0). exists s0. split; [auto|].
    unfold apply. rewrite W0, A. split; [auto|]. left.
    unfold attemptOf in A; cbv zeta in A.
    destruct o; repeat match type of A with context [if ?b then _ else _] => destruct b end;
      inversion A; subst; exact Logic.I.
Qed.

Lemma no_underflow_l s : reachable s -> forall t, ~ In (t, ODec, RThrowUnderflow) (trace s).
Proof.
  unfold reachable. remember initShared as i eqn:Ei. induction 1 as [s|s1 s2 s3 R IH St]; subst.
  - intros t [].
  - specialize (IH eq_refl). intros t H.
    assert (I2 : Inv s2) by (apply inv_reachable; exact R).
    destruct St as [s t' o' n r' P' R' L A | s t' o' P' R' L | s t' o' cur' r' P' A | s t' o' cur' n r' P' A X | s t' o' cur' n r' P' A X];
    cbn [trace] in *; try (now apply (IH t)).
    + destruct H as [H|H]; [|now apply (IH t)]. inversion H; subst. discriminate.
    + destruct H as [H|H]; [|now apply (IH t)]. inversion H; subst.
      destruct I2 as (_ & _ & Hp). destruct (Hp _ _ _ P') as (_ & _ & Hc & Z).
      unfold attemptOf in A; cbv zeta in A. rewrite acc_eq in A.
      destruct (N.eqb_spec (cur' mod 262144) 0) as [E|E]; [|discriminate].
      apply Z; auto.
    + destruct H as [H|H]; [|now apply (IH t)]. inversion H; subst.
      unfold attemptOf in A; cbv zeta in A.
      repeat match type of A with context [if ?b then _ else _] => destruct b end; discriminate.
Qed.

Lemma overflow_true_l s s' t : reachable s -> step client s s' ->
  trace s' = (t, OInc, RThrowOverflow) :: trace s ->
  exists s0, since t s0 s /\ N.of_nat (length (holders (trace s0))) = max_refs.
Proof.
  intros R St E. destruct (linearised_l _ _ _ _ _ R St E) as (s0 & S & A & _).
  exists s0. split; [auto|]. pose proof S as (R0 & _).
  rewrite <- count_exact_l by auto.
  destruct (accessors_l (word s0)) as (_ & _ & _ & _ & _ & _ & ->).
  destruct (inv_reachable _ R0) as (Hw & Sh & _).
  unfold apply, attemptOf in A. rewrite acc_eq in A. change kAccessRefMask with 262143 in A.
  destruct (N.eqb_spec (word s0 mod 262144) 262143) as [X|X].
  - change (refs (view (word s0))) with (word s0 mod 262144) in *.
    unfold shape in Sh. cbn [view refs] in *.
    destruct (owners (trace s0)) as [|[? []] [|? ?]]; try tauto.
    + destruct Sh as [M _]. change (marks (view (word s0)) 2 = false) in M. 
      change (N.testbit (word s0) (18 + 2)) with (marks (view (word s0)) 2). rewrite M. exact X.
    + destruct Sh as (_ & Z & _). change (word s0 mod 262144 = 0) in Z. lia.
    + destruct Sh as (_ & Z & _). change (word s0 mod 262144 = 1) in Z. lia.
  - exfalso. destruct (bitSetIn (word s0) kExclusive); cbn [snd] in A; [|discriminate].
    destruct (word s0 mod 262144 =? 0); discriminate.
Qed.
