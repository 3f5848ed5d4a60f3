(** Whole runs. *)
From Coq Require Import List Arith Bool Lia.
Import ListNotations.
From Verif Require Import Destr_model Destr_spec Destr_proofs Destr_proofs2 Destr_proofs3 Destr_proofs4 Destr_proofs5 Destr_proofs6 Destr_proofs7 Destr_proofs8.

Lemma dids_app a b : dids (a ++ b) = dids a ++ dids b.
Proof. apply flat_map_app. Qed.
Lemma run_inv l : forall s d s1 tr, Inv s d -> calm s l -> run s l = Some (s1, tr) -> Inv s1 (d ++ dids tr).
Proof.
  induction l as [|a l IH]; intros s d s1 tr H C R; cbn in *.
  - inversion R; subst. cbn. rewrite app_nil_r. exact H.
  - destruct C as [Hz C]. destruct (step s a) as [[s2 e]|] eqn:St; [|discriminate]. destruct (run s2 l) as [[s3 e3]|] eqn:R3; [|discriminate].
    inversion R; subst. rewrite dids_app, app_assoc. eapply IH; eauto. eapply step_inv; eauto.
Qed.

Definition iids (e : list event) : list nat := flat_map (fun x => match x with Inserted v => [v] | _ => [] end) e.
Lemma evictCB_next s v f s1 e : evictCB s v f = (s1, e) -> nextid s1 = nextid s /\ iids e = [] /\ length e <= 1.
Proof.
  unfold evictCB. destruct (findRam s) as [it|]; [destruct (clean it)|]; try destruct (negb f && marked s); intro E; inversion E; subst; auto.
Qed.
Lemma rstep_next s r b s1 o : rstep s r b = Some (s1, o) -> nextid s1 = nextid s.
Proof. destruct r; cbn; try destruct (lockFree s); try destruct (enabled s); try destruct (b || hasContexts s); try destruct (content s); try destruct b; intro E; inversion E; subst; reflexivity. Qed.
Lemma step_next s a s1 e : step s a = Some (s1, e) -> (nextid s1 = nextid s /\ iids e = [] /\ length e <= 1) \/ (nextid s1 = S (nextid s) /\ e = [Inserted (nextid s)]).
Proof.
  intro St. destruct a; cbn in St.
  - left. destruct (spawn s c) as [s2|] eqn:Sp; [|discriminate]. inversion St; subst. split; [|auto]. destruct c; cbn in Sp; try (inversion Sp; subst; reflexivity).
    + destruct (findRam s); inversion Sp; subst; reflexivity.
    + destruct (findRam s); [|discriminate]. destruct (holds s); [discriminate|]. destruct withToken; [destruct (_ && _)|]; inversion Sp; subst; reflexivity.
  - destruct (pick i (muts s)) as [[[l1 m] l2]|] eqn:P; [|discriminate]. destruct m; cbn in St.
    + right. destruct (findRam s) as [it|]; inversion St; subst; [|auto]. destruct (clean it && negb (evicted it)); auto.
    + left. destruct (ram s) as [it|]; [destruct (_ && _)|]; inversion St; subst; auto.
    + left. destruct (ram s) as [it|]; [destruct (_ =? _)|]; inversion St; subst; auto. destruct (_ && _); auto.
    + left. inversion St; subst; auto.
    + left. destruct (lockFree s); inversion St; subst; auto.
    + left. destruct (findRam s); inversion St; subst; auto.
    + left. destruct (ram s) as [it|]; [destruct (_ =? _)|]; inversion St; subst; auto. destruct (_ && _); auto.
    + left. destruct (rstep s r b) as [[s2 [?|]]|] eqn:R; inversion St; subst; apply rstep_next in R; auto.
    + left. inversion St; subst; auto.
  - left. destruct (pick i (spurs s)) as [[[l1 r] l2]|] eqn:P; [|discriminate]. destruct (rstep s r b) as [[s2 [?|]]|] eqn:R; inversion St; subst; apply rstep_next in R; auto.
  - left. destruct (pick i (evs s)) as [[[l1 x] l2]|] eqn:P; [|discriminate]. inversion St as [E]. unfold estep in E. destruct (epcs x).
    + inversion E; subst. split; [|auto]. cbn. destruct (ram s) as [it|]; [destruct (_ && _)|]; reflexivity.
    + destruct (_ && _); inversion E; subst; auto.
    + inversion E; subst; auto.
    + destruct (etok x) as [[|]|]; [destruct b| |]; inversion E; subst; auto.
    + inversion E; subst; auto.
    + inversion E; subst. split; [reflexivity|]. destruct (eclean x && negb (eevicted x)); auto.
  - left. destruct (pick i (loose s)) as [[[l1 x] l2]|] eqn:P; [|discriminate]. inversion St; subst; auto.
  - left. inversion St; subst; auto.
  - left. destruct (lockFree s && _); [|discriminate]. destruct (fill s) eqn:F; [discriminate|]. inversion St; subst; auto.
  - left. destruct (filling s); inversion St; subst; auto.
  - left. destruct (phase s); try discriminate. destruct (queue s) as [|[v| |] q]; try discriminate. destruct r; inversion St; subst; auto.
  - left. destruct (phase s); try discriminate. destruct (queue s) as [|[v| |] q]; try discriminate. inversion St; subst; auto.
  - left. destruct (phase s); try discriminate. destruct (queue s) as [|[v| |] q]; try discriminate. destruct ok; [destruct (content s)|]; inversion St; subst; auto.
  - left. unfold callback in St. destruct (phase s) as [| |v|v|v|v| |[v|]|v|v|]; try discriminate; try (inversion St; subst; auto; fail).
    + destruct (evictCB s v true) as [s2 e2] eqn:C. apply evictCB_next in C. inversion St; subst. exact C.
    + destruct (evictCB s v false) as [s2 e2] eqn:C. apply evictCB_next in C. inversion St; subst. exact C.
    + destruct (enabled s && b); inversion St; subst; auto.
    + destruct (_ && _); inversion St; subst; auto.
    + destruct (ram s); inversion St; subst; auto.
  - left. destruct (content s); inversion St; subst; auto.
  - left. destruct (pick i (pend s)) as [[[l1 [v [|]]] l2]|]; try discriminate. destruct (lockFree s); inversion St; subst; auto.
  - left. destruct (pick i (pend s)) as [[[l1 [v [|]]] l2]|]; try discriminate. destruct (evictCB s v false) as [s2 e2] eqn:C. apply evictCB_next in C. inversion St; subst. exact C.
  - left. destruct (content s); inversion St; subst; auto.
  - left. destruct (findRam s); [|discriminate]. destruct (holds s); inversion St; subst; auto.
  - left. inversion St; subst; auto.
Qed.
Lemma run_next l : forall s s1 tr, run s l = Some (s1, tr) -> nextid s <= nextid s1 /\ iids tr = seq (nextid s) (nextid s1 - nextid s).
Proof.
  induction l as [|a l IH]; intros s s1 tr R; cbn in *.
  - inversion R; subst. rewrite Nat.sub_diag. auto.
  - destruct (step s a) as [[s2 e]|] eqn:St; [|discriminate]. destruct (run s2 l) as [[s3 e3]|] eqn:R3; [|discriminate]. inversion R; subst.
    destruct (IH _ _ _ R3) as [L E]. unfold iids in *. rewrite flat_map_app, E. destruct (step_next _ _ _ _ St) as [(N & Ee & _)|[N ->]].
    + unfold iids in Ee. rewrite Ee, N in *. auto.
    + rewrite N in *. split; [lia|]. cbn. replace (nextid s1 - nextid s) with (S (nextid s1 - S (nextid s))) by lia. reflexivity.
Qed.
Lemma in_iids id tr : In (Inserted id) tr <-> In id (iids tr).
Proof.
  unfold iids. rewrite in_flat_map. split; [intro X; exists (Inserted id); cbn; auto|]. intros ([v|v] & A & B); cbn in B; [|contradiction]. destruct B as [->|[]]. exact A.
Qed.
Lemma destr_cnt id tr : destructions id tr = cnt id (dids tr).
Proof.
  unfold destructions, cnt, dids. induction tr as [|[v|v] tr IH]; [reflexivity| |]; cbn -[event_eq Nat.eq_dec].
  - destruct (event_eq (Inserted v) (Destructed id)); [discriminate|exact IH].
  - destruct (event_eq (Destructed v) (Destructed id)) as [X|X], (Nat.eq_dec v id); congruence.
Qed.

Section Runs.
Variables (l : list action) (s : state) (tr : list event).
Hypothesis (R : run init l = Some (s, tr)) (C : calm init l).
Lemma the_inv : Inv s (dids tr).
Proof. apply (run_inv l init [] s tr); auto. apply inv_init. Qed.
Lemma ins_next id : In (Inserted id) tr <-> id < nextid s.
Proof. rewrite in_iids. destruct (run_next _ _ _ _ R) as [_ ->]. rewrite in_seq. cbn. lia. Qed.
Lemma own id : destructions id tr + cnt id (hold s) = if id <? nextid s then 1 else 0.
Proof. rewrite destr_cnt. apply (i_own _ _ the_inv). Qed.
Lemma at_most_once id : destructions id tr <= 1.
Proof. pose proof (own id). destruct (id <? nextid s); lia. Qed.
Lemma inserted_once id : In (Inserted id) tr -> count_occ event_eq tr (Inserted id) = 1.
Proof.
  intro I. assert (E : count_occ event_eq tr (Inserted id) = count_occ Nat.eq_dec (iids tr) id).
  { clear. unfold iids. induction tr as [|[v|v] t IH]; [reflexivity| |]; cbn -[event_eq Nat.eq_dec].
    - destruct (event_eq (Inserted v) (Inserted id)) as [X|X], (Nat.eq_dec v id); congruence.
    - destruct (event_eq (Destructed v) (Inserted id)); [discriminate|exact IH]. }
  rewrite E. destruct (run_next _ _ _ _ R) as [_ Q]. rewrite Q. apply in_iids in I. rewrite Q in I.
  pose proof (seq_NoDup (nextid s - nextid init) (nextid init)) as N. apply (NoDup_count_occ' Nat.eq_dec); auto.
Qed.
Lemma not_in_hold id : In (Destructed id) tr -> ~ In id (hold s).
Proof.
  intros D H. apply (count_occ_In event_eq) in D. pose proof (own id) as O. unfold destructions in O. apply cnt_in in H. destruct (id <? nextid s); lia.
Qed.
Lemma held_zero id : In id (hold s) -> destructions id tr = 0.
Proof. intros H. pose proof (own id) as O. apply cnt_in in H. destruct (id <? nextid s); lia. Qed.
Lemma ram_hold it : findRam s = Some it -> In (iid it) (hold s).
Proof.
  intro F. apply findRam_some in F. destruct F as [Er Ex]. unfold hold, ramHold. rewrite Er, Ex. destruct (clean it && negb (evicted it)) eqn:B.
  - apply andb_prop in B. destruct B as [B1 B2]. destruct (i_clean _ _ the_inv it Er Ex B1) as (_ & M & Cu). destruct (evicted it); [discriminate|].
    cbn. rewrite !in_app_iff. right; right. unfold flashHold. rewrite M, Cu. cbn. auto.
  - left. reflexivity.
Qed.
Lemma quiet_cases id : quiet s -> In (Inserted id) tr -> (inCache s id /\ destructions id tr = 0) \/ (~ inCache s id /\ destructions id tr = 1).
Proof.
  intros (Qm & Qs & Qe & Ql & Qq & Qp) I. apply ins_next in I. pose proof (own id) as O. destruct (Nat.ltb_spec id (nextid s)); [|lia].
  pose proof the_inv as V.
  assert (Mk : marked s = false). { destruct (marked s) eqn:M; auto. destruct (i_mark _ _ V M) as (_ & _ & _ & [D|(k & r & D)]); [rewrite Qq in D; discriminate | congruence]. }
  assert (Ph : phase s = PIdle). { pose proof (i_ph _ _ V) as P. rewrite Qq in P. destruct (phase s); auto; try (destruct P as (? & ? & P); discriminate); destruct P as (? & P); discriminate. }
  assert (Cu : cur s = match content s with Some v => [v] | None => [] end) by (unfold cur, cbs, onFlash; rewrite Ph, Qp; reflexivity).
  assert (Pi : pins s = []) by (unfold pins, rest; rewrite Ph, Qq; reflexivity).
  assert (Ho : hold s = ramHold s ++ match content s with Some v => [v] | None => [] end).
  { unfold hold, flashHold. rewrite Qe, Ql, Mk, Cu, Pi, app_nil_r. reflexivity. }
  assert (Iff : In id (hold s) <-> inCache s id).
  { split.
    - rewrite Ho, in_app_iff. intros [X|X].
      + left. unfold ramHold in X. unfold findRam. destruct (ram s) as [it|] eqn:Er; [|contradiction]. destruct (excl it); [contradiction|]. exists it. destruct (clean it && negb (evicted it)); [contradiction|]. destruct X as [<-|[]]. auto.
      + right. destruct (content s); [|contradiction]. destruct X as [<-|[]]. reflexivity.
    - intros [(it & F & <-)|X]; [apply ram_hold; exact F|]. rewrite Ho, in_app_iff, X. right. left. reflexivity. }
  destruct (in_dec Nat.eq_dec id (hold s)) as [X|X].
  - left. split; [apply Iff; exact X | apply held_zero; exact X].
  - right. split; [tauto|]. assert (cnt id (hold s) = 0) by (apply count_occ_not_In; exact X). lia.
Qed.
End Runs.

Lemma step_len s a s1 e : step s a = Some (s1, e) -> length e <= 1.
Proof. intro St. destruct (step_next _ _ _ _ St) as [(_ & _ & L)|(_ & ->)]; auto. Qed.
Lemma run_split l : forall s s1 tr t1 x t2, run s l = Some (s1, tr) -> tr = t1 ++ x :: t2 ->
  exists l1 l2 s2, l = l1 ++ l2 /\ run s l1 = Some (s2, t1 ++ [x]).
Proof.
  induction l as [|a l IH]; intros s s1 tr t1 x t2 R E; cbn in R.
  - inversion R; subst. destruct t1; discriminate.
  - destruct (step s a) as [[s2 e]|] eqn:St; [|discriminate]. destruct (run s2 l) as [[s3 e3]|] eqn:R3; [|discriminate]. inversion R; subst. pose proof (step_len _ _ _ _ St) as Le.
    assert (X : (exists u, t1 = e ++ u /\ e3 = u ++ x :: t2) \/ (e = [x] /\ t1 = [])).
    { destruct e as [|y [|z e]]; cbn in *; [left; exists t1; auto | | lia]. destruct t1 as [|z t1]; cbn in H1; inversion H1; subst; [right; auto|]. left. exists t1. auto. }
    destruct X as [(u & -> & ->)|[-> ->]].
    + destruct (IH _ _ _ u x t2 R3 eq_refl) as (l1 & l2 & s4 & -> & R4). exists (a :: l1), l2, s4. split; [reflexivity|]. cbn. rewrite St, R4, app_assoc. reflexivity.
    + exists [a], l, s2. split; [reflexivity|]. cbn. rewrite St. reflexivity.
Qed.
Lemma calm_app l1 l2 : forall s, calm s (l1 ++ l2) -> calm s l1.
Proof.
  induction l1 as [|a l1 IH]; intros s C; cbn in *; auto. destruct C as [A B]. split; auto. destruct (step s a) as [[s1 e]|]; auto.
Qed.
Lemma only_inserted l s tr t1 id t2 : run init l = Some (s, tr) -> calm init l -> tr = t1 ++ Destructed id :: t2 -> In (Inserted id) t1.
Proof.
  intros R C E. destruct (run_split l init s tr t1 _ t2 R E) as (l1 & l2 & s2 & -> & R2). apply calm_app in C.
  assert (I : In (Inserted id) (t1 ++ [Destructed id])).
  { pose proof (own l1 s2 _ R2 C id) as O. assert (D : 1 <= destructions id (t1 ++ [Destructed id])). { apply (count_occ_In event_eq). apply in_app_iff. right. left. reflexivity. }
    apply (ins_next l1 s2 _ R2). destruct (Nat.ltb_spec id (nextid s2)); lia. }
  apply in_app_iff in I. destruct I as [I|[I|[]]]; [exact I | discriminate].
Qed.
