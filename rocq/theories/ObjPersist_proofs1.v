(** Persisting: what is in the files at the end. *)
From Coq Require Import List ZArith Bool Permutation Lia Arith.
Import ListNotations.
Open Scope Z_scope.
From Verif Require Import ObjPersist_model ObjPersist_spec.

Lemma ok_inj : forall a b, Some (Ok a) = Some (Ok b) -> a = b. Proof. congruence. Qed.
Lemma nth_split_upd : forall A (l : list A) n x v, nth_error l n = Some x -> exists l1 l2, l = l1 ++ x :: l2 /\ upd l n v = l1 ++ v :: l2 /\ length l1 = n.
Proof.
  induction l as [|y l IH]; intros n x v H; destruct n; cbn in H; try discriminate.
  - injection H as ->. exists [], l. auto.
  - destruct (IH n x v H) as (l1 & l2 & -> & E & L). exists (y :: l1), l2. cbn. rewrite E. auto.
Qed.
Lemma upd_len : forall A (l : list A) n v, length (upd l n v) = length l.
Proof. induction l as [|y l IH]; intros [|n] v; cbn; auto. Qed.
Lemma upd_nth : forall A (l : list A) n v i, (n < length l)%nat -> nth_error (upd l n v) i = if Nat.eqb i n then Some v else nth_error l i.
Proof. induction l as [|y l IH]; intros [|n] v [|i] L; cbn in *; try lia; auto. apply IH. lia. Qed.

Lemma filter_le : forall A (f : A -> bool) l, (length (filter f l) <= length l)%nat.
Proof. induction l; cbn; auto. destruct (f a); cbn; lia. Qed.
Definition heldBy (w : worker) : list obj := match wat w with WGot o => [o] | _ => [] end.
Definition held (s : state) : list obj := flat_map heldBy (wks s).
Definition ended (w : worker) : Prop := wat w = WEnd.

Section P.
Variable ser : nat -> sres.
Variable cap : nat.

Definition empties (l : list (list obj)) : nat := length (filter (fun p => match p with [] => true | _ => false end) l).
Record Inv (now : Z) (ps : list (list obj)) (s : state) : Prop := {
  v_clk : now <= clock s;
  v_all : exists skipped taken, Permutation (concat ps) (concat (pools s) ++ skipped ++ taken) /\ Forall (gone (clock s)) skipped /\
            Forall (fun o => alive now o = true) taken /\ nexp s = length skipped /\
            Permutation (flat_map (recs ser) taken) (concat (content s) ++ flat_map (recs ser) (held s) ++ flat_map (recs ser) (que s));
  v_len : length (pools s) = length ps;
  v_loop : at_ s = MLoop -> (fin s <= empties (firstn (pos s) (pools s)))%nat;
  v_over : at_ s <> MLoop -> concat (pools s) = [];
  v_stop : forall n, at_ s = MStop n -> que s = [] /\ (n <= length (wks s))%nat /\ (forall i w, nth_error (wks s) i = Some w -> (ended w <-> (i < n)%nat));
  v_live : at_ s = MLoop \/ at_ s = MWait -> Forall (fun w => ~ ended w) (wks s);
  v_done : at_ s = MDone -> que s = [] /\ Forall ended (wks s)
}.

Lemma expired_gone : forall o t, expired (oexp o) t = true -> gone t o.
Proof. intros o t H. unfold expired in H. apply andb_true_iff in H. destruct H as [A B]. apply negb_true_iff, Z.eqb_neq in A. apply Z.ltb_lt in B. split; auto. Qed.
Lemma fresh_alive : forall o t now, expired (oexp o) t = false -> now <= t -> alive now o = true.
Proof.
  intros o t now H L. unfold expired in H. unfold alive. apply andb_false_iff in H. destruct H as [A|B].
  - apply negb_false_iff in A. rewrite A. reflexivity.
  - apply Z.ltb_ge in B. apply orb_true_iff. right. apply Z.leb_le. lia.
Qed.
Lemma gone_later : forall t t' l, t <= t' -> Forall (gone t) l -> Forall (gone t') l.
Proof. intros t t' l L F. eapply Forall_impl; [|exact F]. intros o [A B]. split; auto. lia. Qed.

Lemma empties_all : forall l : list (list obj), (length l <= empties l)%nat -> concat l = [].
Proof.
  unfold empties. induction l as [|p l IH]; intros H; [reflexivity|]. cbn in H. destruct p.
  - cbn in H. cbn. apply IH. lia.
  - exfalso. pose proof (filter_le _ (fun p => match p with [] => true | _ => false end) l). lia.
Qed.
Lemma empties_skip : forall (l : list (list obj)) n p, nth_error l n = Some p -> empties (firstn (S n) l) = (empties (firstn n l) + match p with [] => 1 | _ => 0 end)%nat.
Proof.
  unfold empties. induction l as [|q l IH]; intros [|n] p H; cbn in H; try discriminate.
  - injection H as ->. cbn. destruct p; reflexivity.
  - specialize (IH n p H). rewrite (firstn_cons (S n)), (firstn_cons n). cbn [filter]. destruct q; cbn [length]; rewrite IH; lia.
Qed.
Lemma firstn_upd : forall A (l : list A) n v, firstn n (upd l n v) = firstn n l.
Proof. induction l as [|y l IH]; intros [|n] v; cbn; auto. now rewrite IH. Qed.

Lemma concat_take : forall (l : list (list obj)) n o r, nth_error l n = Some (o :: r) -> Permutation (concat l) (o :: concat (upd l n r)).
Proof.
  intros l n o r H. destruct (nth_split_upd _ _ _ _ r H) as (l1 & l2 & -> & -> & _). rewrite !concat_app. cbn.
  symmetry. apply Permutation_middle.
Qed.

Lemma content_upd : forall l n (w v : worker), nth_error l n = Some w -> file v = file w -> map file (upd l n v) = map file l.
Proof. intros l n w v H E. destruct (nth_split_upd _ _ _ _ v H) as (l1 & l2 & -> & -> & _). rewrite !map_app. cbn. now rewrite E. Qed.
Lemma held_upd : forall l n (w v : worker), nth_error l n = Some w -> Permutation (heldBy w ++ flat_map heldBy (upd l n v)) (heldBy v ++ flat_map heldBy l).
Proof.
  intros l n w v H. destruct (nth_split_upd _ _ _ _ v H) as (l1 & l2 & -> & -> & _). rewrite !flat_map_app. cbn.
  rewrite !app_assoc. rewrite (Permutation_app_comm (heldBy w)). rewrite (Permutation_app_comm (heldBy v)). rewrite <- !app_assoc.
  apply Permutation_app_head. rewrite !app_assoc. apply Permutation_app_tail. apply Permutation_app_comm.
Qed.
Lemma content_add : forall l n (w v : worker) r, nth_error l n = Some w -> file v = file w ++ [r] -> Permutation (concat (map file (upd l n v))) (r :: concat (map file l)).
Proof.
  intros l n w v r H E. destruct (nth_split_upd _ _ _ _ v H) as (l1 & l2 & -> & -> & _). rewrite !map_app, !concat_app. cbn. rewrite E.
  rewrite <- app_assoc. cbn. rewrite !app_assoc. symmetry. apply Permutation_middle.
Qed.
Lemma perm_flat : forall A B (f : A -> list B) l m, Permutation l m -> Permutation (flat_map f l) (flat_map f m).
Proof. intros A B f l m H. induction H; cbn; [constructor|now apply Permutation_app_head| |etransitivity; eauto].
  rewrite !app_assoc. apply Permutation_app_tail, Permutation_app_comm. Qed.

Lemma inv_init : forall now ps w, Inv now ps (init now ps w).
Proof.
  intros now ps w. constructor; cbn; try (intros; discriminate); auto; try lia.
  - exists [], []. cbn. rewrite app_nil_r. repeat split; auto. unfold content, held; cbn.
    assert (E : concat (map file (repeat newWorker w)) = [] /\ flat_map heldBy (repeat newWorker w) = []) by (induction w; cbn; auto). destruct E as [-> ->]. constructor.
  - intros H. congruence.
  - intros _. apply Forall_forall. intros x X. apply repeat_spec in X. subst. discriminate.
Qed.

(** a worker changes and nothing else: neither ends *)
Lemma inv_setW : forall now ps s n w v q, Inv now ps s -> nth_error (wks s) n = Some w -> (ended w <-> ended v) -> 
  (que s = [] -> q = []) ->
  Permutation (concat (map file (upd (wks s) n v)) ++ flat_map (recs ser) (flat_map heldBy (upd (wks s) n v)) ++ flat_map (recs ser) q)
              (concat (content s) ++ flat_map (recs ser) (held s) ++ flat_map (recs ser) (que s)) ->
  Inv now ps (setW s n v q).
Proof.
  intros now ps s n w v q [A (sk & tk & B1 & B2 & B3 & B4 & B5) C D E F G H] N Ew Q P. assert (L : (n < length (wks s))%nat) by (apply nth_error_Some; congruence).
  constructor; cbn; auto.
  - exists sk, tk. repeat split; auto. unfold content, held; cbn. rewrite P. exact B5.
  - intros m M. destruct (F m M) as (F1 & F2 & F3). split; [auto|]. rewrite upd_len. split; [auto|]. intros i x X. rewrite upd_nth in X by assumption.
    destruct (Nat.eqb_spec i n) as [->|]; [injection X as <-; rewrite <- Ew; now apply F3|now apply F3].
  - intros M. apply G in M. apply Forall_forall. intros x X. apply In_nth_error in X. destruct X as [i X]. rewrite upd_nth in X by assumption.
    rewrite Forall_forall in M. destruct (Nat.eqb_spec i n); [injection X as <-; rewrite <- Ew; apply M; eapply nth_error_In; eauto|apply M; eapply nth_error_In; eauto].
  - intros M. destruct (H M) as [H1 H2]. split; [auto|]. apply Forall_forall. intros x X. apply In_nth_error in X. destruct X as [i X]. rewrite upd_nth in X by assumption.
    rewrite Forall_forall in H2. destruct (Nat.eqb_spec i n); [injection X as <-; rewrite <- Ew; apply H2; eapply nth_error_In; eauto|apply H2; eapply nth_error_In; eauto].
Qed.

Lemma inv_step : forall now ps s e s', Inv now ps s -> step ser cap s e = Some (Ok s') -> Inv now ps s'.
Proof.
  intros now ps s e s' I H. destruct e as [d| | | | |n|n|n ok].
  - apply ok_inj in H. subst s'. destruct I as [A (sk & tk & B1 & B2 & B3 & B4 & B5) C D E F G J]. constructor; cbn; auto; [lia|].
    exists sk, tk. repeat split; auto. eapply gone_later; [|exact B2]. lia.
  - unfold step in H. destruct (at_ s) eqn:M; try discriminate. destruct (Nat.eqb_spec (pos s) (length (pools s))) as [P|]; [|discriminate]. apply ok_inj in H.
    destruct I as [A B C D E F G J]. specialize (D M). rewrite P, firstn_all in D. destruct (Nat.ltb_spec (fin s) (length (pools s))) as [L|L]; subst s'.
    + constructor; cbn; auto; try discriminate.
    + constructor; cbn; auto; try discriminate. intros _. apply empties_all. lia.
  - unfold step in H. destruct (at_ s) eqn:M; try discriminate. destruct (nth_error (pools s) (pos s)) as [[|o r]|] eqn:N; try discriminate.
    + apply ok_inj in H. subst s'. destruct I as [A B C D E F G J]. specialize (D M). constructor; unfold setM; cbn [clock pools pos fin at_ que wks nexp]; auto; try discriminate; try congruence.
      intros _. rewrite (empties_skip _ _ _ N). lia.
    + pose proof (concat_take _ _ _ _ N) as CT. assert (Lp : (pos s < length (pools s))%nat) by (apply nth_error_Some; congruence).
      assert (Em : (fin s <= empties (firstn (S (pos s)) (upd (pools s) (pos s) r)))%nat).
      { rewrite (empties_skip _ _ r); [rewrite firstn_upd; pose proof (v_loop _ _ _ I M); lia|]. rewrite upd_nth by assumption. now rewrite Nat.eqb_refl. }
      destruct I as [A (sk & tk & B1 & B2 & B3 & B4 & B5) C D E F G J]. destruct (expired (oexp o) (clock s)) eqn:X.
      * apply ok_inj in H. subst s'. constructor; unfold setM; cbn [clock pools pos fin at_ que wks nexp]; auto; try discriminate; try congruence; try (now rewrite upd_len).
        exists (o :: sk), tk. repeat split; auto; [|constructor; [now apply expired_gone|assumption]|cbn; congruence].
        rewrite B1, CT. cbn. apply Permutation_middle.
      * destruct (Nat.ltb (length (que s)) cap); [|discriminate]. apply ok_inj in H. subst s'. constructor; unfold setM; cbn [clock pools pos fin at_ que wks nexp]; auto; try discriminate; try congruence; try (now rewrite upd_len).
        exists sk, (tk ++ [o]). repeat split; auto.
        -- rewrite B1, CT. rewrite !app_assoc. cbn. rewrite <- Permutation_cons_append. reflexivity.
        -- apply Forall_app. split; [assumption|]. constructor; [|constructor]. eapply fresh_alive; eauto.
        -- unfold content, held in *; cbn. rewrite !flat_map_app. rewrite !app_assoc. apply Permutation_app; [|reflexivity]. rewrite <- !app_assoc. exact B5.
  - unfold step in H. destruct (at_ s) eqn:M; try discriminate. destruct (que s) eqn:Q; [|discriminate]. apply ok_inj in H. subst s'.
    destruct I as [A B C D E F G J]. constructor; unfold setM; cbn [clock pools pos fin at_ que wks nexp]; auto; try discriminate.
    + intros _. apply E. congruence.
    + intros n Hn. injection Hn as <-. split; [exact Q|]. split; [lia|]. intros i w Hw. split; [|lia]. intros W. exfalso.
      assert (G' := G (or_intror M)). rewrite Forall_forall in G'. eapply G'; [eapply nth_error_In; eauto|exact W].
  - unfold step in H. destruct (at_ s) as [| |n|] eqn:M; try discriminate. destruct (v_stop _ _ _ I n M) as (F1 & F2 & F3). destruct (nth_error (wks s) n) as [w|] eqn:N.
    + destruct (wat w) eqn:W; try discriminate. apply ok_inj in H. subst s'. assert (L : (n < length (wks s))%nat) by (apply nth_error_Some; congruence).
      destruct I as [A (sk & tk & B1 & B2 & B3 & B4 & B5) C D E F G J]. constructor; unfold setM, setW; cbn [clock pools pos fin at_ que wks nexp]; auto; try discriminate.
      * exists sk, tk. repeat split; auto. unfold content, held in *; cbn. rewrite (content_upd _ _ _ _ N) by reflexivity.
        pose proof (held_upd _ _ _ (mkW WEnd (file w)) N) as HU. unfold heldBy at 1 3 in HU. rewrite W in HU. cbn in HU. rewrite (perm_flat _ _ (recs ser) _ _ HU). exact B5.
      * intros _. apply E. congruence.
      * intros m Hm. injection Hm as <-. split; [assumption|]. rewrite upd_len. split; [lia|]. intros i x X. rewrite upd_nth in X by assumption.
        destruct (Nat.eqb_spec i n) as [->|Ne]; [injection X as <-; unfold ended; cbn; split; [lia|reflexivity]|]. rewrite (F3 i x X). lia.
      * intros [|]; discriminate.
    + apply ok_inj in H. subst s'. apply nth_error_None in N. destruct I as [A B C D E F G J]. constructor; unfold setM; cbn [clock pools pos fin at_ que wks nexp]; auto; try discriminate.
      * intros _. apply E. congruence.
      * intros [|]; discriminate.
      * intros _. split; [assumption|]. apply Forall_forall. intros x X. apply In_nth_error in X. destruct X as [i X]. apply (F3 i x X). 
        assert (i < length (wks s))%nat by (apply nth_error_Some; congruence). lia.
  - unfold step in H. destruct (nth_error (wks s) n) as [w|] eqn:N; [|discriminate]. destruct (wat w) eqn:W; try discriminate. apply ok_inj in H. subst s'.
    apply (inv_setW now ps s n w _ (que s)); auto; [unfold ended; rewrite W; cbn; split; discriminate|].
    rewrite (content_upd _ _ _ _ N) by reflexivity. pose proof (held_upd _ _ _ (mkW WIn (file w)) N) as HU. unfold heldBy at 1 3 in HU. rewrite W in HU. cbn in HU.
    rewrite (perm_flat _ _ (recs ser) _ _ HU). reflexivity.
  - unfold step in H. destruct (nth_error (wks s) n) as [w|] eqn:N; [|discriminate]. destruct (wat w) eqn:W; try discriminate. destruct (que s) as [|o q] eqn:Q; apply ok_inj in H; subst s'.
    + apply (inv_setW now ps s n w _ []); auto; [unfold ended; rewrite W; cbn; split; discriminate|].
      rewrite (content_upd _ _ _ _ N) by reflexivity. pose proof (held_upd _ _ _ (mkW WIdle (file w)) N) as HU. unfold heldBy at 1 3 in HU. rewrite W in HU. cbn in HU.
      rewrite (perm_flat _ _ (recs ser) _ _ HU), Q. reflexivity.
    + apply (inv_setW now ps s n w _ q); auto; [unfold ended; rewrite W; cbn; split; discriminate|congruence|].
      rewrite (content_upd _ _ _ _ N) by reflexivity. pose proof (held_upd _ _ _ (mkW (WGot o) (file w)) N) as HU. unfold heldBy at 1 3 in HU. rewrite W in HU. cbn in HU.
      rewrite (perm_flat _ _ (recs ser) _ _ HU), Q. cbn. apply Permutation_app_head. rewrite <- app_assoc. rewrite !app_assoc. apply Permutation_app_tail, Permutation_app_comm.
  - unfold step in H. destruct (nth_error (wks s) n) as [w|] eqn:N; [|discriminate]. destruct (wat w) eqn:W; try discriminate.
    pose proof (held_upd _ _ _ (mkW WIn (file w)) N) as HU. unfold heldBy at 1 3 in HU. rewrite W in HU. cbn in HU. apply (perm_flat _ _ (recs ser)) in HU. cbn in HU.
    destruct (ser (optr o)) as [c| |] eqn:S; try discriminate.
    + destruct ok; [|discriminate]. apply ok_inj in H. subst s'. apply (inv_setW now ps s n w _ (que s)); auto; [unfold ended; rewrite W; cbn; split; discriminate|].
      rewrite (content_add (wks s) n w _ (recOf o c) N) by reflexivity.
      assert (HE : flat_map heldBy (upd (wks s) n (mkW WIn (file w ++ [recOf o c]))) = flat_map heldBy (upd (wks s) n (mkW WIn (file w)))).
      { destruct (nth_split_upd _ _ _ _ (mkW WIn (file w)) N) as (l1 & l2 & E1 & E2 & E3). destruct (nth_split_upd _ _ _ _ (mkW WIn (file w ++ [recOf o c])) N) as (m1 & m2 & D1 & D2 & D3).
        rewrite E2, D2. assert (l1 = m1 /\ l2 = m2) as [-> ->].
        { rewrite E1 in D1. rewrite <- D3 in E3. clear - D1 E3. revert m1 D1 E3. induction l1; intros [|b m1] D1 E3; cbn in *; try discriminate; [injection D1; auto|].
          injection D1 as -> D1. injection E3 as E3. destruct (IHl1 m1 D1 E3) as [-> ->]. auto. }
        rewrite !flat_map_app. reflexivity. }
      rewrite HE. unfold recs at 1 in HU. rewrite S in HU. cbn in HU. unfold content, held. cbn. rewrite Permutation_middle. apply Permutation_app_head.
      rewrite <- HU. cbn. reflexivity.
    + apply ok_inj in H. subst s'. apply (inv_setW now ps s n w _ (que s)); auto; [unfold ended; rewrite W; cbn; split; discriminate|].
      rewrite (content_upd _ _ _ _ N) by reflexivity. unfold recs at 1 in HU. rewrite S in HU. cbn in HU. unfold content, held. rewrite HU. reflexivity.
Qed.
Lemma inv_reach : forall now ps w s, reach ser cap (init now ps w) s -> Inv now ps s.
Proof. intros now ps w s H. induction H; [apply inv_init|eapply inv_step; eauto]. Qed.

Lemma persist_all : forall now ps w s, reach ser cap (init now ps w) s -> at_ s = MDone ->
  exists skipped taken, Permutation (concat ps) (skipped ++ taken) /\ Forall (gone (clock s)) skipped /\ Forall (fun o => alive now o = true) taken /\
    nexp s = length skipped /\ Permutation (flat_map (recs ser) taken) (concat (content s)).
Proof.
  intros now ps w s H M. destruct (inv_reach _ _ _ _ H) as [A (sk & tk & B1 & B2 & B3 & B4 & B5) C D E F G J]. rewrite E in B1 by congruence. destruct (J M) as [Q W].
  exists sk, tk. repeat split; auto. rewrite B5, Q. cbn.
  assert (Hn : held s = []). { unfold held. clear - W. induction W as [|x l X W IH]; [reflexivity|]. cbn. rewrite IH. unfold heldBy, ended in *. now rewrite X. }
  rewrite Hn. cbn. now rewrite app_nil_r.
Qed.
End P.
