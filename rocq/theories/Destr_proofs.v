(** The invariant behind C19, and lists. *)
From Coq Require Import List Arith Bool Lia.
Import ListNotations.
From Verif Require Import Destr_model Destr_spec.

(** ** Lists *)
Lemma pick_app {A} i (l : list A) l1 x l2 : pick i l = Some (l1, x, l2) -> l = l1 ++ x :: l2.
Proof.
  revert l l1. induction i as [|i IH]; intros [|y r] l1; cbn; try discriminate.
  - intros E. inversion E; reflexivity.
  - destruct (pick i r) as [[[a z] b]|] eqn:P; try discriminate. intros E. inversion E; subst. cbn. f_equal. apply IH. exact P.
Qed.
Definition cnt (v : nat) (l : list nat) : nat := count_occ Nat.eq_dec l v.
Lemma cnt_app v a b : cnt v (a ++ b) = cnt v a + cnt v b.
Proof. unfold cnt. apply count_occ_app. Qed.
Lemma cnt_cons v x l : cnt v (x :: l) = cnt v [x] + cnt v l.
Proof. apply (cnt_app v [x] l). Qed.
Lemma cnt_nil v : cnt v [] = 0. Proof. reflexivity. Qed.
Lemma cnt_self v : cnt v [v] = 1. Proof. unfold cnt. cbn. destruct (Nat.eq_dec v v); congruence. Qed.
Lemma cnt_in v l : In v l -> 1 <= cnt v l.
Proof. intro H. apply (count_occ_In Nat.eq_dec) in H. unfold cnt. lia. Qed.
Lemma existsb_app_f {A} (f : A -> bool) a b : existsb f (a ++ b) = existsb f a || existsb f b.
Proof. apply existsb_app. Qed.
Lemma existsb_false {A} (f : A -> bool) l : existsb f l = false <-> forall x, In x l -> f x = false.
Proof.
  split.
  - intros E x H. destruct (f x) eqn:F; auto. assert (existsb f l = true) by (apply existsb_exists; eauto). congruence.
  - intros H. destruct (existsb f l) eqn:E; auto. apply existsb_exists in E. destruct E as (x & Hx & Fx). rewrite H in Fx; auto.
Qed.

(** ** The queue *)
Definition rest (s : state) : list job := match phase s with PIdle => queue s | _ => tl (queue s) end.
Definition insIds (q : list job) : list nat := flat_map (fun j => match j with JIns v => [v] | _ => [] end) q.
Definition hasIns q := existsb isIns q.
Definition hasRem q := existsb isRem q.
Definition lastInsF (a : bool) (j : job) : bool := match j with JIns _ => true | JRem => false | JLook => a end.
Definition lastIns (q : list job) : bool := fold_left lastInsF q false.
(** what running the queue does to whether flash has a copy; [None]: an insertion over a copy *)
Fixpoint sim (o : bool) (q : list job) : option bool :=
  match q with
  | [] => Some o
  | JLook :: r => sim o r
  | JRem :: r => sim false r
  | JIns _ :: r => if o then None else sim true r
  end.
Definition looks (q : list job) : nat := length (filter (fun j => match j with JLook => true | _ => false end) q).

Lemma sim_app o q r : sim o (q ++ r) = match sim o q with Some x => sim x r | None => None end.
Proof. revert o. induction q as [|[v| |] q IH]; intro o; cbn; auto. destruct o; auto. Qed.
Lemma sim_mono q f : sim true q = Some f -> exists f', sim false q = Some f' /\ (f' = true -> f = true).
Proof. induction q as [|[v| |] q IH]; cbn; intro E; eauto; [inversion E; subst; eexists; split; [reflexivity|discriminate] | discriminate]. Qed.
Lemma sim_norem o q f : sim o q = Some f -> hasRem q = false -> (o = true -> f = true /\ hasIns q = false) /\ (f = false -> o = false /\ hasIns q = false).
Proof.
  unfold hasRem, hasIns. revert o. induction q as [|[v| |] q IH]; intros o; cbn; intros E H; try discriminate.
  - inversion E; subst. split; intros ->; auto.
  - destruct o; [discriminate|]. specialize (IH true E H). destruct IH as [IH1 _]. destruct (IH1 eq_refl) as [-> _]. split; discriminate.
  - apply IH; assumption.
Qed.
Lemma lastIns_app q r : lastIns (q ++ r) = fold_left lastInsF r (lastIns q).
Proof. unfold lastIns. apply fold_left_app. Qed.
Lemma lastF_mono q a : fold_left lastInsF q false = true -> fold_left lastInsF q a = true.
Proof. revert a. induction q as [|[v| |] q IH]; intro a; cbn; auto; discriminate. Qed.
Lemma lastIns_tl q : lastIns (tl q) = true -> lastIns q = true.
Proof. destruct q as [|j q]; cbn; auto. unfold lastIns. intro H. cbn. apply lastF_mono. exact H. Qed.
Lemma lastIns_noIns q : hasIns q = false -> lastIns q = false.
Proof.
  unfold lastIns. generalize (eq_refl : false = false). generalize false at 1 4. revert q.
  induction q as [|[v| |] q IH]; intros a Ha; cbn; intro H; auto; try discriminate; apply IH; auto.
Qed.
Lemma noRem_lastIns q : hasRem q = false -> lastIns q = false -> hasIns q = false.
Proof.
  intros H L. destruct (hasIns q) eqn:E; auto. exfalso. revert H L E. unfold hasRem, hasIns, lastIns. generalize false at 2.
  assert (G : forall q a, existsb isRem q = false -> existsb isIns q = true -> fold_left lastInsF q a = true).
  { clear. induction q as [|[v| |] q IH]; intros a; cbn; intros H E; try discriminate.
    - clear IH E. assert (G : forall q, existsb isRem q = false -> fold_left lastInsF q true = true).
      { clear. induction q as [|[v| |] q IH]; cbn; auto; discriminate. } auto.
    - auto. }
  intros b H L E. rewrite (G q b H E) in L. discriminate.
Qed.
Lemma hasRem_tl q : hasRem (tl q) = true -> hasRem q = true.
Proof. unfold hasRem. destruct q; cbn; auto. intros ->. apply orb_true_r. Qed.
Lemma hasIns_tl q : hasIns q = false -> hasIns (tl q) = false.
Proof. unfold hasIns. destruct q; cbn; auto. intro H. apply orb_false_iff in H. tauto. Qed.
Lemma insIds_noIns q : hasIns q = false -> insIds q = [].
Proof. unfold hasIns, insIds. induction q as [|[v| |] q IH]; cbn; auto; discriminate. Qed.
Lemma noIns_insIds q : insIds q = [] -> hasIns q = false.
Proof. unfold hasIns, insIds. induction q as [|[v| |] q IH]; cbn; auto; discriminate. Qed.
Lemma insIds_app a b : insIds (a ++ b) = insIds a ++ insIds b.
Proof. unfold insIds. apply flat_map_app. Qed.

Global Arguments looks : simpl never. Global Arguments hasIns : simpl never. Global Arguments hasRem : simpl never.
Global Arguments lastIns : simpl never. Global Arguments insIds : simpl never. Global Arguments cnt : simpl never.
(** ** Copies and owners *)
Definition cbs (s : state) : list nat := match phase s with PFail v | PFail2 v | PRem v | PRem2 v => [v] | _ => [] end.
Definition onFlash (s : state) : list nat := map fst (pend s) ++ match content s with Some v => [v] | None => [] end.
Definition cur (s : state) : list nat := cbs s ++ onFlash s.
Definition occ (s : state) : bool := match onFlash s with [] => false | _ => true end.
Definition pins (s : state) : list nat := insIds (rest s).
Definition ramHold (s : state) : list nat :=
  match ram s with
  | Some it => if excl it then [] else if clean it && negb (evicted it) then [] else [iid it]
  | None => []
  end.
Definition evHold (e : ev) : list nat := if eclean e && negb (eevicted e) then [] else [eid e].
Definition flashHold (s : state) : list nat := if marked s then [] else cur s ++ pins s.
Definition hold (s : state) : list nat := ramHold s ++ loose s ++ flat_map evHold (evs s) ++ flashHold s.
Definition validTok (e : ev) : bool := match etok e with Some true => true | _ => false end.
Definition hasTok (e : ev) : bool := match etok e with Some _ => true | None => false end.
(** the mutating call in progress, if any, is in its removal part and still has its item in the table *)
Definition pinChain (s : state) : Prop := exists r, muts s = [MRm true r].
Definition waits (r : rpc) : bool := match r with RTomb | RLock => true | _ => false end.
Definition mWaits (m : mpc) : bool := match m with MRemAcc _ | MRemFind => false | MRm _ r => waits r | _ => true end.
Definition liveFill (s : state) : Prop := match phase s with PRead (Some _) | PGot _ => fill s = Some true | _ => False end.
Definition early (r : rpc) : Prop := r = RTomb \/ r = RLock \/ r = RInv.

Record Inv (s : state) (d : list nat) : Prop := mkInv {
  i_en : enabled s = true;
  i_ph : match phase s with
         | PIdle => True
         | PInsOk | PFail _ | PFail2 _ => exists v r, queue s = JIns v :: r
         | PRem _ | PRem2 _ | PDone => exists r, queue s = JRem :: r
         | _ => exists r, queue s = JLook :: r
         end;
  i_cur : length (cur s) <= 1;
  i_rem : match phase s with PFail _ | PFail2 _ | PRem _ | PRem2 _ | PDone => onFlash s = [] | _ => True end;
  i_sim : exists f, sim (occ s) (rest s) = Some f;
  i_mut : length (muts s) <= 1;
  i_held : match muts s with
           | [MUpd i] | [MUpd2 i] | [MRemAcc i] => exists it, ram s = Some it /\ iid it = i /\ excl it = false
           | [MRm true _] => exists it, ram s = Some it /\ excl it = false /\ clean it = false
           | [MRm false r] => waits r = false
           | _ => True
           end;
  i_excl : forall it, ram s = Some it -> excl it = true -> exists e, In e (evs s) /\ epcs e = EUnlink /\ eid e = iid it;
  i_own : forall v, cnt v d + cnt v (hold s) = if v <? nextid s then 1 else 0;
  i_mark : marked s = true -> (exists v, cur s = [v]) /\ pins s = [] /\ (match phase s with PFail _ | PFail2 _ => False | _ => True end)
           /\ (hasRem (queue s) = true \/ exists k r, muts s = [MRm k r]);
  i_fill : liveFill s -> forall v, phase s = PRead (Some v) \/ phase s = PGot v -> onFlash s = [v];
  i_pinv : forall v, pend s = [(v, true)] -> ~ liveFill s;
  i_lock : forall v, phase s = PLocked v -> onFlash s = [v] /\ hasRem (queue s) = false /\ (forall w, pend s <> [(w, true)])
           /\ (forall m, In m (muts s) -> mWaits m = true) /\ (forall r, In r (spurs s) -> waits r = true);
  i_fillq : looks (queue s) + (if filling s then 1 else 0) = match fill s with Some _ => 1 | None => 0 end;
  i_clean : forall it, ram s = Some it -> excl it = false -> clean it = true ->
            hasIns (queue s) = false /\ marked s = false /\ cur s = (if evicted it then [] else [iid it]);
  i_settled : forall it, ram s = Some it -> excl it = false -> clean it = false \/ evicted it = true -> pinChain s \/ sim (occ s) (rest s) = Some false;
  i_last : lastIns (queue s) = true -> forall it, ram s = Some it -> excl it = false -> pinChain s;
  i_tok : forall e, In e (evs s) -> validTok e = true ->
          sim (occ s) (rest s) = Some false /\ lastIns (queue s) = false
          /\ (forall it, ram s = Some it -> excl it = false -> exists r, muts s = [MRm true r] /\ early r)
          /\ match epcs e with
             | EUnlink | EPut => True
             | ECtx | EExec => cur s = [] /\ hasIns (queue s) = false
             | _ => False
             end;
  i_uniq : length (filter hasTok (evs s)) <= 1;
  i_chain : match muts s with
            | [MRm true RCould] => hasIns (queue s) = false
            | _ => True
            end;
  i_late : forall r, muts s = [MRm true r] -> ~ early r -> existsb validTok (evs s) = false;
  i_tokh : forall e, In e (evs s) -> validTok e = true -> evHold e = [eid e]
}.

Lemma inv_init : Inv init [].
Proof.
  constructor; cbn; auto; try (intros; discriminate); try lia; try (intros; contradiction).
  - eexists; reflexivity.
Qed.
