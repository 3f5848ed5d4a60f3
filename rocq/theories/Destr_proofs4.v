(** insertOrReplace, in-place writes, remove. *)
From Coq Require Import List Arith Bool Lia.
Import ListNotations.
From Verif Require Import Destr_model Destr_spec Destr_proofs Destr_proofs2 Destr_proofs3.

Local Arguments Nat.ltb : simpl never.
Ltac inv_goal ::= constructor; try assumption; try (cbn; assumption); try exact Logic.I; try exact (le_n 1).
Lemma cnt_one v x : cnt v [x] = if v =? x then 1 else 0.
Proof. unfold cnt. cbn. destruct (Nat.eq_dec x v), (Nat.eqb_spec v x); congruence. Qed.
Lemma cnt_c v x l : cnt v (x :: l) = (if v =? x then 1 else 0) + cnt v l.
Proof. rewrite cnt_cons, cnt_one. reflexivity. Qed.
Ltac cn := repeat (rewrite cnt_app in * || rewrite cnt_c in * || rewrite cnt_nil in * || rewrite app_nil_r in *).
Ltac ifs := repeat match goal with |- context [if ?a =? ?b then _ else _] => destruct (a =? b) | H : context [if ?a =? ?b then _ else _] |- _ => destruct (a =? b) end.
Lemma findRam_some s it : findRam s = Some it <-> ram s = Some it /\ excl it = false.
Proof. unfold findRam. destruct (ram s) as [x|]; [destruct (excl x) eqn:E|]; split; try (intros [? ?]; congruence); try discriminate; intro X; inversion X; subst; auto. Qed.
Lemma findRam_none s it : findRam s = None -> ram s = Some it -> excl it = true.
Proof. unfold findRam. intros H E. rewrite E in H. destruct (excl it); auto; discriminate. Qed.
Lemma noIns_pins s : hasIns (queue s) = false -> pins s = [].
Proof. intro H. unfold pins. apply insIds_noIns. unfold rest. destruct (phase s); auto; apply hasIns_tl; auto. Qed.
Lemma noIns_notFail s d : Inv s d -> hasIns (queue s) = false -> match phase s with PFail _ | PFail2 _ => False | _ => True end.
Proof. intros H N. pose proof (i_ph _ _ H) as P. destruct (phase s); auto; destruct P as (v & q & E); rewrite E in N; discriminate. Qed.
Lemma novalid s d e : Inv s d -> In e (evs s) -> validTok e = true -> forall it, ram s = Some it -> excl it = false -> (forall r, muts s <> [MRm true r]) -> False.
Proof. intros H E V it E1 E2 N. destruct (i_tok _ _ H e E V) as (_ & _ & X & _). destruct (X it E1 E2) as (r & Y & _). exact (N r Y). Qed.

Lemma ins_inv s d s1 m e b :
  Inv s d -> muts s = [MIns] -> mstep s MIns b = Some (s1, m, e) -> Inv (setMuts s1 [m]) d.
Proof.
  intros H E St. cbn in St. pose proof (noRm_chain s) as Nc. rewrite E in Nc. specialize (Nc Logic.I).
  assert (Nm : forall r, muts s <> [MRm true r]) by (rewrite E; discriminate).
  destruct (findRam s) as [old|] eqn:Fr.
  - apply findRam_some in Fr. destruct Fr as [Er Ex]. destruct (clean old) eqn:Cl.
    + (* clean *)
      destruct (i_clean _ _ H old Er Ex Cl) as (Ni & Mk & Cu). pose proof (noIns_pins s Ni) as Pn. pose proof (noIns_notFail s d H Ni) as Nf.
      pose proof (fun e0 A B => novalid s d e0 H A B old Er Ex Nm) as Nv.
      set (mk := if evicted old then marked s else true).
      assert (Eq : s1 = setMarked (setLoose (setNext (setRam s (Some (mkItem (nextid s) false false false))) (S (nextid s))) (loose s ++ [iid old])) mk /\ m = MRm true RTomb).
      { unfold mk. destruct (evicted old); cbn in St; inversion St; subst; split; reflexivity. }
      destruct Eq as [-> ->]. clear St. open_inv H. inv_goal.
      * cbn. eexists. split; [reflexivity|]. split; reflexivity.
      * intros it X Y. cbn in X. inversion X; subst. discriminate.
      * intro v. specialize (Iown v). unfold hold, flashHold, ramHold in *. cbn in *. change (cur (setMuts _ _)) with (cur s). change (pins (setMuts _ _)) with (pins s).
        rewrite Er, Ex, Cl, Mk, Pn, Cu in *. unfold mk in *. cbn in *.
        destruct (evicted old); cbn in *; rewrite ?Mk; cn;
          destruct (Nat.ltb_spec v (nextid s)), (Nat.ltb_spec v (S (nextid s))), (Nat.eqb_spec v (nextid s)); cbn in *; ifs; lia.
      * cbn. unfold mk. intro M. rewrite Mk in M. destruct (evicted old); [discriminate|]. split; [exists (iid old); exact Cu|]. split; [exact Pn|]. split; [exact Nf|]. right. eauto.
      * intros v P. destruct (Ilock v P) as (A & B & C & D & F). split; [exact A|]. split; [exact B|]. split; [exact C|]. split; [|exact F]. intros x [<-|[]]. reflexivity.
      * intros it X Y Z. cbn in X. inversion X; subst. discriminate.
      * intros it X Y Z. left. exists RTomb. reflexivity.
      * intros _ it X Y. exists RTomb. reflexivity.
      * intros e0 X Y. exfalso. exact (Nv e0 X Y).
      * intros r X Y. cbn in X. inversion X; subst. exfalso. apply Y. unfold early. auto.
    + (* dirty *)
      assert (Eq : s1 = setLoose (setNext (setRam s (Some (mkItem (nextid s) false false false))) (S (nextid s))) (loose s ++ [iid old]) /\ m = MRet) by (cbn in St; inversion St; subst; auto).
      destruct Eq as [-> ->]. clear St.
      pose proof (fun e0 A B => novalid s d e0 H A B old Er Ex Nm) as Nv.
      destruct (i_settled _ _ H old Er Ex (or_introl Cl)) as [?|Fi]; [contradiction|].
      assert (La : lastIns (queue s) = false). { destruct (lastIns (queue s)) eqn:L; auto. exfalso. exact (Nc (i_last _ _ H L old Er Ex)). }
      open_inv H. inv_goal.
      * intros it X Y. cbn in X. inversion X; subst. discriminate.
      * intro v. specialize (Iown v). unfold hold, flashHold, ramHold in *. cbn in *. change (cur (setMuts _ _)) with (cur s). change (pins (setMuts _ _)) with (pins s).
        rewrite Er, Ex, Cl in *. cbn in *. cn.
        destruct (Nat.ltb_spec v (nextid s)), (Nat.ltb_spec v (S (nextid s))), (Nat.eqb_spec v (nextid s)); cbn in *; ifs; lia.
      * intro M. destruct (Imark M) as (A & B & C & D). split; [exact A|]. split; [exact B|]. split; [exact C|]. left. destruct D as [D|(k & r & D)]; [exact D|]. rewrite E in D. discriminate.
      * intros v P. destruct (Ilock v P) as (A & B & C & D & F). split; [exact A|]. split; [exact B|]. split; [exact C|]. split; [|exact F]. intros x [<-|[]]. reflexivity.
      * intros it X Y Z. cbn in X. inversion X; subst. discriminate.
      * intros it X Y Z. right. exact Fi.
      * intros L. exfalso. cbn in L. congruence.
      * intros e0 X Y. exfalso. exact (Nv e0 X Y).
      * intros r X. discriminate.
  - inversion St; subst. clear St. assert (Rh : ramHold s = []).
    { unfold ramHold. destruct (ram s) as [x|] eqn:Er; auto. rewrite (findRam_none s x Fr Er). reflexivity. }
    open_inv H. inv_goal.
    + cbn. eexists. split; [reflexivity|]. split; reflexivity.
    + intros it X Y. cbn in X. inversion X; subst. discriminate.
    + intro v. specialize (Iown v). unfold hold, flashHold in *. rewrite Rh in *. unfold ramHold. cbn in *. change (cur (setMuts _ _)) with (cur s). change (pins (setMuts _ _)) with (pins s).
      cn. destruct (Nat.ltb_spec v (nextid s)), (Nat.ltb_spec v (S (nextid s))), (Nat.eqb_spec v (nextid s)); cbn in *; ifs; lia.
    + intro M. destruct (Imark M) as (A & B & C & D). split; [exact A|]. split; [exact B|]. split; [exact C|]. right. cbn. eauto.
    + intros v P. destruct (Ilock v P) as (A & B & C & D & F). split; [exact A|]. split; [exact B|]. split; [exact C|]. split; [|exact F]. intros x [<-|[]]. reflexivity.
    + intros it X Y Z. cbn in X. inversion X; subst. discriminate.
    + intros it X Y Z. left. exists RTomb. reflexivity.
    + intros _ it X Y. exists RTomb. reflexivity.
    + intros e0 X Y. destruct (Itok e0 X Y) as (A & B & C & D). split; [exact A|]. split; [exact B|]. split; [|exact D]. intros it _ _. exists RTomb. split; [reflexivity | unfold early; auto].
    + intros r X Y. cbn in X. inversion X; subst. exfalso. apply Y. unfold early. auto.
Qed.

Lemma upd2_inv s d i s1 m e b :
  Inv s d -> muts s = [MUpd2 i] -> mstep s (MUpd2 i) b = Some (s1, m, e) -> Inv (setMuts s1 [m]) d.
Proof.
  intros H E St. cbn in St. pose proof (i_held _ _ H) as Ih. rewrite E in Ih. destruct Ih as (it & Er & Ei & Ex).
  pose proof (noRm_chain s) as Nc. rewrite E in Nc. specialize (Nc Logic.I).
  assert (Nm : forall r, muts s <> [MRm true r]) by (rewrite E; discriminate).
  pose proof (fun e0 A B => novalid s d e0 H A B it Er Ex Nm) as Nv.
  rewrite Er, Ei, Nat.eqb_refl in St.
  set (mk := if clean it && negb (evicted it) then true else marked s).
  assert (Eq : s1 = setRam (setMarked s mk) (Some (mkItem i false (evicted it) (excl it))) /\ m = MRm true RTomb).
  { unfold mk. destruct (clean it && negb (evicted it)); inversion St; subst; split; destruct s; reflexivity. }
  destruct Eq as [-> ->]. clear St.
  pose proof (i_clean _ _ H it Er Ex) as Icl. pose proof (noIns_notFail s d H) as Nf.
  open_inv H. inv_goal.
  - cbn. eexists. split; [reflexivity|]. split; [exact Ex|reflexivity].
  - intros x X Y. cbn in X. inversion X; subst. cbn in Y. congruence.
  - intro v. specialize (Iown v). unfold hold, flashHold, ramHold in *. cbn in *. change (cur (setMuts _ _)) with (cur s). change (pins (setMuts _ _)) with (pins s).
    rewrite Er, Ex in *. unfold mk. destruct (clean it) eqn:Cl; cbn in *.
    + destruct (Icl eq_refl) as (Ni & Mk & Cu). rewrite Mk, (noIns_pins s Ni), Cu in *. destruct (evicted it); cbn in *; rewrite ?Mk in *; rewrite ?Ei in *; cn; lia.
    + rewrite Ei in *. exact Iown.
  - cbn. unfold mk. destruct (clean it && negb (evicted it)) eqn:B.
    + intros _. apply andb_prop in B. destruct B as [B1 B2]. destruct (Icl B1) as (Ni & Mk & Cu). destruct (evicted it); [discriminate|].
      split; [eexists; exact Cu|]. split; [exact (noIns_pins s Ni)|]. split; [exact (Nf Ni)|]. right. eauto.
    + intro M. destruct (Imark M) as (A & B' & C & D). split; [exact A|]. split; [exact B'|]. split; [exact C|]. right. eauto.
  - intros v P. destruct (Ilock v P) as (A & B & C & D & F). split; [exact A|]. split; [exact B|]. split; [exact C|]. split; [|exact F]. intros x [<-|[]]. reflexivity.
  - intros x X Y Z. cbn in X. inversion X; subst. discriminate.
  - intros x X Y Z. left. exists RTomb. reflexivity.
  - intros _ x X Y. exists RTomb. reflexivity.
  - intros e0 X Y. exfalso. exact (Nv e0 X Y).
  - intros r X Y. cbn in X. inversion X; subst. exfalso. apply Y. unfold early. auto.
Qed.

Lemma acc_inv s d i s1 m e b :
  Inv s d -> muts s = [MRemAcc i] -> mstep s (MRemAcc i) b = Some (s1, m, e) -> Inv (setMuts s1 [m]) d.
Proof.
  intros H E St. cbn in St. pose proof (i_held _ _ H) as Ih. rewrite E in Ih. destruct Ih as (it & Er & Ei & Ex).
  pose proof (noRm_chain s) as Nc. rewrite E in Nc. specialize (Nc Logic.I).
  assert (Nm : forall r, muts s <> [MRm true r]) by (rewrite E; discriminate).
  pose proof (fun e0 A B => novalid s d e0 H A B it Er Ex Nm) as Nv.
  assert (Lf : forall v, phase s <> PLocked v).
  { intros v P. destruct (i_lock _ _ H v P) as (_ & _ & _ & X & _). specialize (X (MRemAcc i)). rewrite E in X. cbn in X. discriminate X. auto. }
  rewrite Er, Ei, Nat.eqb_refl in St.
  set (mk := if clean it && negb (evicted it) then true else marked s).
  assert (Eq : s1 = setMarked (setLoose (setRam s None) (loose s ++ [i])) mk /\ m = if clean it then MRm false RInv else MRet).
  { unfold mk. destruct (clean it), (evicted it); cbn in St; inversion St; subst; split; destruct s; reflexivity. }
  destruct Eq as [-> ->]. clear St.
  pose proof (i_clean _ _ H it Er Ex) as Icl. pose proof (noIns_notFail s d H) as Nf.
  open_inv H. inv_goal.
  - cbn. destruct (clean it); [reflexivity | exact Logic.I].
  - intros x X Y. discriminate.
  - intro v. specialize (Iown v). unfold hold, flashHold, ramHold in *. cbn in *. change (cur (setMuts _ _)) with (cur s). change (pins (setMuts _ _)) with (pins s).
    rewrite Er, Ex in *. unfold mk. destruct (clean it) eqn:Cl; cbn in *.
    + destruct (Icl eq_refl) as (Ni & Mk & Cu). rewrite Mk, (noIns_pins s Ni), Cu in *. destruct (evicted it); cbn in *; rewrite ?Mk in *; rewrite ?Ei in *; cn; lia.
    + rewrite Ei in *. cn. lia.
  - cbn. unfold mk. destruct (clean it) eqn:Cl; cbn.
    + destruct (Icl eq_refl) as (Ni & Mk & Cu). intros M. destruct (evicted it); cbn in M; [congruence|].
      split; [eexists; exact Cu|]. split; [exact (noIns_pins s Ni)|]. split; [exact (Nf Ni)|]. right. eauto.
    + intro M. destruct (Imark M) as (A & B' & C & D). split; [exact A|]. split; [exact B'|]. split; [exact C|]. left. destruct D as [D|(k & r & D)]; [exact D|]. rewrite E in D. discriminate.
  - intros v P. exfalso. exact (Lf v P).
  - intros x X Y Z. discriminate.
  - intros x X Y Z. discriminate.
  - intros _ x X Y. discriminate.
  - intros e0 X Y. exfalso. exact (Nv e0 X Y).
  - cbn. destruct (clean it); exact Logic.I.
  - intros r X Y. cbn in X. destruct (clean it); discriminate.
Qed.

(** remove(key) that finds nothing: into the removal part, past the lock *)
Lemma remnone_inv s d : Inv s d -> muts s = [MRemFind] -> Inv (setMuts s [MRm false RInv]) d.
Proof.
  intros H E. pose proof (noRm_chain s) as Nc. rewrite E in Nc. specialize (Nc Logic.I).
  assert (Lf : forall v, phase s <> PLocked v).
  { intros v P. destruct (i_lock _ _ H v P) as (_ & _ & _ & X & _). specialize (X MRemFind). rewrite E in X. cbn in X. discriminate X. auto. }
  open_inv H. rewrite E in *. inv_goal.
  - reflexivity.
  - intro M. destruct (Imark M) as (A & B & C & D). split; [exact A|]. split; [exact B|]. split; [exact C|]. right. cbn. eauto.
  - intros v P. exfalso. exact (Lf v P).
  - intros x X Y Z. right. destruct (Isettled x X Y Z) as [?|?]; [contradiction|assumption].
  - intros L x X Y. exfalso. exact (Nc (Ilast L x X Y)).
  - intros e0 X Y. destruct (Itok e0 X Y) as (A & B & C & D). split; [exact A|]. split; [exact B|]. split; [|exact D]. intros it P Q. exfalso. destruct (C it P Q) as (r & R & _). discriminate.
  - intros r X. discriminate.
Qed.

Lemma mut_inv s d i l1 m l2 b s1 m1 e :
  Inv s d -> pick i (muts s) = Some (l1, m, l2) -> mstep s m b = Some (s1, m1, e) ->
  (forall k, m = MRm k RCould -> content s = None -> b = false -> pend s = []) ->
  Inv (setMuts s1 (l1 ++ m1 :: l2)) d.
Proof.
  intros H P St Hz. destruct (muts_one s d i l1 m l2 H P) as (-> & -> & E). cbn [app].
  destruct m.
  - eapply ins_inv; eauto.
  - pose proof (i_held _ _ H) as Ih. rewrite E in Ih. destruct Ih as (it & Er & Ei & Ex). cbn in St. rewrite Er, Ei, Nat.eqb_refl in St. cbn in St.
    destruct (clean it); inversion St; subst; apply mut_change; try (rewrite E); cbn; auto; try (intros; destruct H1 as [<-|[]]; reflexivity). exists it. auto.
  - eapply upd2_inv; eauto.
  - cbn in St. inversion St; subst. apply mut_change; try (rewrite E); cbn; auto. intros v _ x [<-|[]]. reflexivity.
  - cbn in St. destruct (lockFree s) eqn:Lf; inversion St; subst. apply mut_change; try (rewrite E); cbn; auto. intros v Pv. exfalso. exact (notLocked _ Lf v Pv).
  - assert (Lf : forall v, phase s <> PLocked v).
    { intros v Pv. destruct (i_lock _ _ H v Pv) as (_ & _ & _ & X & _). specialize (X MRemFind). rewrite E in X. cbn in X. discriminate X. auto. }
    cbn in St. destruct (findRam s) as [it|] eqn:Fr; inversion St; subst; [|apply remnone_inv; auto].
    apply findRam_some in Fr. apply mut_change; try (rewrite E); cbn; auto; [exists it; tauto | intros v Pv; exfalso; exact (Lf v Pv)].
  - eapply acc_inv; eauto.
  - cbn in St. destruct (rstep s r b) as [[s2 o]|] eqn:R; [|discriminate].
    assert (Eq : s1 = s2 /\ m1 = match o with Some r1 => MRm keep r1 | None => MRet end) by (destruct o; inversion St; auto). destruct Eq as [-> ->].
    eapply mut_rm; eauto. intros -> ? ?. eapply Hz; eauto.
  - discriminate.
Qed.
Lemma mut_ret s d i l1 l2 : Inv s d -> pick i (muts s) = Some (l1, MRet, l2) -> Inv (setMuts s (l1 ++ l2)) d.
Proof.
  intros H P. destruct (muts_one s d i l1 MRet l2 H P) as (-> & -> & E). cbn [app]. apply mut_change; try (rewrite E); cbn; auto; try (intros v _ x []).
Qed.
Lemma spawn_mut s d m : Inv s d -> muts s = [] -> match m with MIns | MRemTomb => True | MUpd i => exists it, ram s = Some it /\ iid it = i /\ excl it = false | _ => False end ->
  Inv (setMuts s (muts s ++ [m])) d.
Proof.
  intros H E Hm. apply mut_change; try rewrite E; cbn; auto; destruct m; try contradiction; auto; intros v _ x [<-|[]]; reflexivity.
Qed.
