(** Persisting and then restoring; crashes; order; and that persisting comes to an end. *)
From Coq Require Import List ZArith Bool Permutation Lia Arith.
Import ListNotations.
Open Scope Z_scope.
From Verif Require Import ObjPersist_model ObjPersist_spec ObjPersist_proofs1 ObjPersist_proofs2.

(** ** Round trip *)
Definition chainOf (ser : nat -> sres) (o : obj) : list (list nat) := match ser (optr o) with SBuf c => c | _ => [] end.
Lemma recs_fits : forall ser l, Forall (fits ser) l -> flat_map (recs ser) l = map (fun o => recOf o (chainOf ser o)) l.
Proof.
  intros ser l F. induction F as [|o l [(b & B) _] F IH]; [reflexivity|]. cbn. rewrite IH. unfold recs, chainOf. rewrite B. reflexivity.
Qed.
Lemma u64_i32 : forall z, 0 <= z < 2 ^ 31 -> u64 (i32 z) = z.
Proof. intros z H. unfold u64, i32. rewrite (Z.mod_small (z + 2 ^ 31)) by lia. rewrite Z.mod_small; lia. Qed.
Lemma brings_obj : forall ser o i, fits ser o -> brings (recOf o (chainOf ser o)) i -> bringsObj ser o i.
Proof.
  intros ser o i ((b & B) & S & X) (H1 & H2 & H3 & H4 & H5). unfold recOf, chainOf in *. rewrite B in *. cbn in *.
  rewrite u32_i32 in H4, H5 by lia. rewrite u64_i32 in H3 by lia. repeat split; auto. rewrite B, H2. reflexivity.
Qed.
Lemma roundtrip : forall ser cap now ps w s now2 s2, 0 <= now -> Forall (fits ser) (concat ps) ->
  reach ser cap (init now ps w) s -> at_ s = MDone -> clock s <= now2 -> rreach (rinit now2 (content s)) s2 -> restored s2 ->
  exists lost objs, Permutation (concat ps) (lost ++ objs) /\ Forall (fun o => 0 <> oexp o /\ oexp o <= rclock s2) lost /\
    Forall2 (bringsObj ser) objs (log s2) /\ length lost = (nexp s + rnexp s2)%nat.
Proof.
  intros ser cap now ps w s now2 s2 Z0 F R M C R2 D.
  destruct (persist_all _ _ _ _ _ _ R M) as (sk & tk & A1 & A2 & A3 & A4 & A5). pose proof (v_clk _ _ _ _ (inv_reach _ _ _ _ _ _ R)) as CL.
  assert (N2 : 0 <= now2) by lia. destruct (restore_all _ _ _ N2 R2 D) as (ex & kept & B1 & B2 & B3 & B4).
  pose proof (r_clk _ _ _ (rinv_reach _ _ _ N2 R2)) as CL2.
  assert (F' : Forall (fits ser) tk). { eapply Permutation_Forall in F; [|exact A1]. now apply Forall_app in F. }
  rewrite (recs_fits _ _ F'), B1 in A5. symmetry in A5. apply Permutation_map_inv in A5. destruct A5 as (l3 & E & P).
  symmetry in E. apply map_eq_app in E. destruct E as (a & b & -> & E1 & E2). apply (Permutation_Forall P) in F'. apply Forall_app in F'. destruct F' as [Fa Fb].
  exists (sk ++ a), b. split; [|split; [|split]].
  - rewrite A1, P, app_assoc. reflexivity.
  - apply Forall_app. split.
    + eapply Forall_impl; [|exact A2]. intros o [G1 G2]. split; auto. lia.
    + rewrite <- E1 in B2. clear - B2 Fa. induction a as [|o a IH]; [constructor|]. cbn in B2. inversion B2 as [|? ? [G1 G2] B3]; subst. inversion Fa as [|? ? X Fa2]; subst.
      constructor; [|now apply IH]. destruct X as (_ & _ & X). cbn in G1, G2. rewrite u32_i32 in G1, G2 by lia. split; lia.
  - rewrite <- E2 in B3. clear - B3 Fb. revert B3. generalize (log s2). induction b as [|o b IH]; intros l B3; cbn in B3; inversion B3; subst; [constructor|].
    inversion Fb; subst. constructor; [now apply brings_obj|now apply IH].
  - rewrite app_length, A4, B4, <- E1, map_length. reflexivity.
Qed.

(** ** Crashes *)
Lemma allSome_map : forall A (l : list A), allSome (map Some l) = Some l.
Proof. induction l; cbn; [reflexivity|]. now rewrite IHl. Qed.
Lemma seq_nth_map : forall A B (f : A -> B) l, map (fun i => match nth_error l i with Some w => Some (f w) | None => None end) (seq 0 (length l)) = map Some (map f l).
Proof.
  intros A B f l. rewrite map_map. induction l as [|x l IH]; [reflexivity|]. cbn [length seq map nth_error]. f_equal. rewrite <- seq_shift, map_map. exact IH.
Qed.
Lemma opened_running : forall d s, opened (running d s) = Some (content s).
Proof.
  intros d s. unfold opened, running. cbn [base files]. rewrite <- (allSome_map _ (content s)). unfold content. f_equal.
  rewrite <- seq_nth_map. apply map_ext_in. intros i I. apply in_seq in I. destruct (nth_error (wks s) i) eqn:N; [reflexivity|]. apply nth_error_None in N. lia.
Qed.
Lemma crash_running : forall ser cap now ps w s d, reach ser cap (init now ps w) s ->
  exists fs rest, opened (running d s) = Some fs /\ Permutation (flat_map (recs ser) (concat ps)) (concat fs ++ rest).
Proof.
  intros ser cap now ps w s d R. destruct (v_all _ _ _ _ (inv_reach _ _ _ _ _ _ R)) as (sk & tk & A1 & _ & _ & _ & A5).
  exists (content s), (flat_map (recs ser) (held s) ++ flat_map (recs ser) (que s) ++ flat_map (recs ser) (concat (pools s) ++ sk)). split; [apply opened_running|].
  rewrite (perm_flat _ _ (recs ser) _ _ A1). rewrite (Permutation_app_comm (concat (pools s))). rewrite !flat_map_app, A5, <- !app_assoc.
  rewrite (Permutation_app_comm (flat_map (recs ser) sk)). rewrite <- !app_assoc. do 3 apply Permutation_app_head. apply Permutation_refl.
Qed.
Lemma allSome_in : forall A (l : list (option A)) r x, allSome l = Some r -> In x r -> In (Some x) l.
Proof.
  induction l as [|[y|] l IH]; intros r x H I; cbn in H; try discriminate; [apply some_inj in H; subst; destruct I|].
  destruct (allSome l) eqn:E; [|discriminate]. apply some_inj in H. subst r. destruct I as [->|I]; [now left|right; eauto].
Qed.
Lemma crash_opening : forall d n k fs f, opened (opening d n k) = Some fs -> In f fs -> f = [] \/ exists i, files d i = Some f.
Proof.
  intros d n k fs f H I. unfold opened in H. assert (K : forall m, allSome (map (files (opening d n k)) (seq 0 m)) = Some fs -> f = [] \/ exists i, files d i = Some f).
  { intros m E. eapply allSome_in in E; [|exact I]. apply in_map_iff in E. destruct E as (i & E & _). cbn [files opening] in E.
    destruct (Nat.ltb (S (S i)) k && Nat.ltb i n); [left; congruence|right; eauto]. }
  destruct (base (opening d n k)) as [[m|]|]; [now apply (K m)|apply some_inj in H; subst fs; destruct I|discriminate].
Qed.
Lemma opening_done : forall d n k i, (n + 2 <= k)%nat -> (i < n)%nat -> base (opening d n k) = Some (Some n) /\ files (opening d n k) i = Some [].
Proof.
  intros d n k i K I. destruct k as [|[|k]]; try lia. unfold opening. cbn [base files]. split; [reflexivity|].
  destruct (Nat.ltb_spec (S (S i)) (S (S k))); [|lia]. destruct (Nat.ltb_spec i n); [reflexivity|lia].
Qed.

(** ** Order *)
Lemma sub_refl : forall A (l : list A), subseq l l. Proof. induction l; [apply sub_nil|now apply sub_take]. Qed.
Lemma sub_nil_l : forall A (l : list A), subseq [] l. Proof. induction l; [apply sub_nil|now apply sub_skip]. Qed.
Lemma sub_trans : forall A (b c : list A), subseq b c -> forall a, subseq a b -> subseq a c.
Proof.
  intros A b c H. induction H; intros a S; auto.
  - apply sub_skip. auto.
  - inversion S; subst; [apply sub_skip; auto|apply sub_take; auto].
Qed.
Lemma sub_app : forall A (a b c d : list A), subseq a b -> subseq c d -> subseq (a ++ c) (b ++ d).
Proof. intros A a b c d H S. induction H; cbn; auto; [now apply sub_skip|now apply sub_take]. Qed.
Lemma sub_flat : forall A B (f : A -> list B) a b, subseq a b -> subseq (flat_map f a) (flat_map f b).
Proof.
  intros A B f a b H. induction H; cbn; [constructor| |].
  - apply (sub_app _ [] (f x)); [apply sub_nil_l|assumption].
  - apply sub_app; [apply sub_refl|assumption].
Qed.
Lemma sub_filter_later : forall t t' l, t <= t' -> subseq (filter (alive t') l) (filter (alive t) l).
Proof.
  intros t t' l L. induction l as [|o l IH]; [constructor|]. cbn. destruct (alive t' o) eqn:X.
  - assert (Y : alive t o = true). { unfold alive in *. apply orb_true_iff in X. destruct X as [X|X]; [now rewrite X|]. apply Z.leb_le in X. apply orb_true_iff. right. apply Z.leb_le. lia. }
    rewrite Y. now apply sub_take.
  - destruct (alive t o); [now apply sub_skip|assumption].
Qed.
Definition onefile (ser : nat -> sres) (s : state) (tk : list obj) : Prop :=
  exists w, wks s = [w] /\ file w ++ flat_map (recs ser) (heldBy w) ++ flat_map (recs ser) (que s) = flat_map (recs ser) tk.
Definition OInv (ser : nat -> sres) (ps : list (list obj)) (s : state) : Prop :=
  exists tk, onefile ser s tk /\ forall i p0, nth_error ps i = Some p0 -> exists pre p, p0 = pre ++ p /\ nth_error (pools s) i = Some p /\ subseq (filter (alive (clock s)) pre) tk.
Lemma one_nth : forall A (l : list A) n x y, l = [x] -> nth_error l n = Some y -> n = 0%nat /\ y = x.
Proof. intros A l n x y -> H. destruct n as [|[|]]; cbn in H; try discriminate. split; congruence. Qed.
Lemma oinv_step : forall ser cap ps s e s', OInv ser ps s -> step ser cap s e = Some (Ok s') -> OInv ser ps s'.
Proof.
  intros ser cap ps s e s' (tk & (w & W1 & W2) & P) H. destruct e as [d| | | | |n|n|n ok]; unfold step in H.
  - apply ok_inj in H. subst s'. exists tk. split; [exists w; auto|]. intros i p0 Hp. destruct (P i p0 Hp) as (pre & p & E & N & S). exists pre, p. cbn. repeat split; auto.
    eapply sub_trans; [exact S|]. apply sub_filter_later. lia.
  - destruct (at_ s); try discriminate. destruct (Nat.eqb (pos s) (length (pools s))); [|discriminate]. apply ok_inj in H. 
    destruct (Nat.ltb (fin s) (length (pools s))); subst s'; exists tk; (split; [exists w; auto|exact P]).
  - destruct (at_ s); try discriminate. destruct (nth_error (pools s) (pos s)) as [[|o r]|] eqn:N; try discriminate.
    + apply ok_inj in H. subst s'. exists tk. split; [exists w; auto|exact P].
    + assert (L : (pos s < length (pools s))%nat) by (apply nth_error_Some; congruence). destruct (expired (oexp o) (clock s)) eqn:X.
      * apply ok_inj in H. subst s'. exists tk. split; [exists w; auto|]. intros i p0 Hp. destruct (P i p0 Hp) as (pre & p & E & Np & S). cbn [pools clock].
        rewrite upd_nth by assumption. destruct (Nat.eqb_spec i (pos s)) as [->|]; [|exists pre, p; auto].
        rewrite N in Np. apply some_inj in Np. subst p. exists (pre ++ [o]), r. split; [rewrite <- app_assoc; exact E|]. split; [reflexivity|].
        rewrite filter_app. cbn. assert (Y : alive (clock s) o = false).
        { unfold expired in X. apply andb_true_iff in X. destruct X as [X1 X2]. apply negb_true_iff in X1. apply Z.ltb_lt in X2. unfold alive. rewrite X1. cbn. apply Z.leb_gt. lia. }
        rewrite Y, app_nil_r. exact S.
      * destruct (Nat.ltb (length (que s)) cap); [|discriminate]. apply ok_inj in H. subst s'. exists (tk ++ [o]). split.
        { exists w. cbn [wks que]. split; [assumption|]. rewrite !flat_map_app, <- W2, !app_assoc. reflexivity. }
        intros i p0 Hp. destruct (P i p0 Hp) as (pre & p & E & Np & S). cbn [pools clock].
        rewrite upd_nth by assumption. destruct (Nat.eqb_spec i (pos s)) as [->|].
        -- rewrite N in Np. apply some_inj in Np. subst p. exists (pre ++ [o]), r. split; [rewrite <- app_assoc; exact E|]. split; [reflexivity|].
           rewrite filter_app. apply sub_app; [exact S|]. cbn. destruct (alive (clock s) o); [apply sub_refl|apply sub_nil_l].
        -- exists pre, p. repeat split; auto. rewrite <- (app_nil_r (filter _ pre)). apply sub_app; [exact S|apply sub_nil_l].
  - destruct (at_ s); try discriminate. destruct (que s) eqn:Q; [|discriminate]. apply ok_inj in H. subst s'. exists tk. split; [exists w|exact P]. cbn [que wks setM]. rewrite Q. auto.
  - destruct (at_ s) as [| |n|]; try discriminate. destruct (nth_error (wks s) n) as [v|] eqn:N.
    + destruct (wat v) eqn:V; try discriminate. apply ok_inj in H. subst s'. destruct (one_nth _ _ _ _ _ W1 N) as [-> ->]. exists tk. split; [|exact P].
      exists (mkW WEnd (file w)). cbn [wks setM setW que]. rewrite W1. split; [reflexivity|]. rewrite <- W2. unfold heldBy. rewrite V. reflexivity.
    + apply ok_inj in H. subst s'. exists tk. split; [exists w; auto|exact P].
  - destruct (nth_error (wks s) n) as [v|] eqn:N; [|discriminate]. destruct (wat v) eqn:V; try discriminate. apply ok_inj in H. subst s'.
    destruct (one_nth _ _ _ _ _ W1 N) as [-> ->]. exists tk. split; [|exact P]. eexists. cbn [wks setW que]. rewrite W1. split; [reflexivity|]. rewrite <- W2. unfold heldBy. rewrite V. reflexivity.
  - destruct (nth_error (wks s) n) as [v|] eqn:N; [|discriminate]. destruct (wat v) eqn:V; try discriminate. destruct (one_nth _ _ _ _ _ W1 N) as [-> ->].
    destruct (que s) as [|o q] eqn:Q; apply ok_inj in H; subst s'; exists tk; (split; [|exact P]); eexists; cbn [wks setW que]; rewrite W1; (split; [reflexivity|]); rewrite <- W2; unfold heldBy; rewrite V; cbn; rewrite ?app_nil_r; reflexivity.
  - destruct (nth_error (wks s) n) as [v|] eqn:N; [|discriminate]. destruct (wat v) as [| |o|] eqn:V; try discriminate. destruct (one_nth _ _ _ _ _ W1 N) as [-> ->].
    destruct (ser (optr o)) as [c| |] eqn:S; try discriminate.
    + destruct ok; [|discriminate]. apply ok_inj in H. subst s'. exists tk. split; [|exact P]. eexists. cbn [wks setW que]. rewrite W1. split; [reflexivity|]. rewrite <- W2. unfold heldBy. rewrite V. cbn.
      unfold recs at 2. rewrite S. rewrite <- !app_assoc. reflexivity.
    + apply ok_inj in H. subst s'. exists tk. split; [|exact P]. eexists. cbn [wks setW que]. rewrite W1. split; [reflexivity|]. rewrite <- W2. unfold heldBy. rewrite V. cbn.
      unfold recs at 2. rewrite S. reflexivity.
Qed.
Lemma oinv_reach : forall ser cap now ps s, reach ser cap (init now ps 1) s -> OInv ser ps s.
Proof.
  intros ser cap now ps s R. induction R; [|eapply oinv_step; eauto]. exists []. split; [exists newWorker; split; reflexivity|]. intros i p0 H. exists [], p0. repeat split; auto. constructor.
Qed.
Lemma concat_nil_nth : forall A (l : list (list A)) i p, concat l = [] -> nth_error l i = Some p -> p = [].
Proof. intros A l. induction l as [|q l IH]; intros [|i] p H N; cbn in *; try discriminate; apply app_eq_nil in H; destruct H; [congruence|eauto]. Qed.
Lemma order : forall ser cap now ps s p0, reach ser cap (init now ps 1) s -> at_ s = MDone -> In p0 ps ->
  exists f, content s = [f] /\ subseq (flat_map (recs ser) (filter (alive (clock s)) p0)) f.
Proof.
  intros ser cap now ps s p0 R M I. destruct (oinv_reach _ _ _ _ _ R) as (tk & (w & W1 & W2) & P). pose proof (inv_reach _ _ _ _ _ _ R) as V.
  destruct (v_done _ _ _ _ V M) as [Q E]. apply In_nth_error in I. destruct I as [i N]. destruct (P i p0 N) as (pre & p & -> & Np & S).
  assert (p = []) as -> by (eapply concat_nil_nth; [|exact Np]; apply (v_over _ _ _ _ V); congruence). rewrite app_nil_r.
  exists (file w). unfold content. rewrite W1. split; [reflexivity|]. assert (F : file w = flat_map (recs ser) tk).
  { rewrite <- W2, Q. rewrite W1 in E. inversion E as [|? ? X]; subst. unfold heldBy. unfold ended in X. rewrite X. cbn. now rewrite app_nil_r. }
  rewrite F. now apply sub_flat.
Qed.
