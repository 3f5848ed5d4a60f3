(** Restoring from one file keeps the order. *)
From Coq Require Import List ZArith Bool Lia Arith.
Import ListNotations.
Open Scope Z_scope.
From Verif Require Import ObjPersist_model ObjPersist_spec ObjPersist_proofs1 ObjPersist_proofs2 ObjPersist_proofs3.

Definition one (now : Z) (f : list rec) (s : rstate) : Prop :=
  exists w rd kept, rws s = [w] /\ f = rd ++ left w /\ subseq kept rd /\ subseq (filter (fresh (rclock s)) rd) kept /\ Forall2 brings kept (log s).
Lemma sub_fresh_later : forall t t' l, t <= t' -> subseq (filter (fresh t') l) (filter (fresh t) l).
Proof.
  intros t t' l L. induction l as [|r l IH]; [apply sub_nil|]. cbn. destruct (fresh t' r) eqn:X.
  - assert (Y : fresh t r = true). { unfold fresh in *. apply orb_true_iff in X. destruct X as [X|X]; [now rewrite X|]. apply Z.ltb_lt in X. apply orb_true_iff. right. apply Z.ltb_lt. lia. }
    rewrite Y. now apply sub_take.
  - destruct (fresh t r); [now apply sub_skip|assumption].
Qed.
Lemma one_step : forall now f s e s', 0 <= now -> RInv now [f] s -> one now f s -> rstep s e = Some s' -> one now f s'.
Proof.
  intros now f s e s' Z0 V (w & rd & kept & W & E & S & G & B) H. pose proof (r_ws _ _ _ V) as C. destruct e as [d|n|n ok|n]; unfold rstep in H.
  - apply some_inj in H. subst s'. exists w, rd, kept. repeat split; auto. eapply sub_trans; [exact G|]. cbn. apply sub_fresh_later. lia.
  - destruct (nth_error (rws s) n) as [v|] eqn:N; [|discriminate]. destruct (rat v) eqn:R; try discriminate. apply some_inj in H. subst s'. destruct (one_nth _ _ _ _ _ W N) as [-> ->].
    eexists _, rd, kept. unfold setR. cbn [rws log rclock]. rewrite W. split; [reflexivity|]. auto.
  - destruct (nth_error (rws s) n) as [v|] eqn:N; [|discriminate]. pose proof (C n v N) as T. destruct (rat v) as [|t|] eqn:R; try discriminate. destruct (left v) as [|r rest] eqn:LV; [discriminate|].
    destruct (one_nth _ _ _ _ _ W N) as [-> ->]. pose proof (u32_range (rexp r)) as U. cbv zeta in H. set (e := u32 (rexp r)) in *. destruct ((0 <? e) && (e <=? t)) eqn:X; apply some_inj in H; subst s'; unfold setR.
    + eexists _, (rd ++ [r]), kept. cbn [rws log rclock]. rewrite W. split; [reflexivity|]. cbn [left]. rewrite <- app_assoc. split; [rewrite E, LV; reflexivity|]. split; [|split; [|assumption]].
      * rewrite <- (app_nil_r kept). apply sub_app; [assumption|apply sub_nil_l].
      * rewrite filter_app. cbn. assert (Y : fresh (rclock s) r = false).
        { unfold fresh. fold e. apply andb_true_iff in X. destruct X as [X1 X2]. apply Z.ltb_lt in X1. apply Z.leb_le in X2. apply orb_false_iff. split; [apply Z.eqb_neq|apply Z.ltb_ge]; lia. }
        rewrite Y, app_nil_r. exact G.
    + apply andb_false_iff in X. rewrite Z.ltb_ge, Z.leb_gt in X.
      eexists _, (rd ++ [r]), (kept ++ [r]). cbn [rws log rclock]. rewrite W. split; [reflexivity|]. cbn [left]. rewrite <- app_assoc. split; [rewrite E, LV; reflexivity|]. split; [apply sub_app; [assumption|apply sub_refl]|]. split; [rewrite filter_app; apply sub_app; [exact G|cbn; destruct (fresh (rclock s) r); [apply sub_refl|apply sub_nil_l]]|].
      apply Forall2_app; [assumption|]. constructor; [|constructor]. unfold brings, iexp. cbn. fold e. repeat split; auto.
      * intros E0. rewrite E0. reflexivity.
      * intros E0. assert (TE : t < e) by lia. destruct (Z.eqb_spec e 0); [lia|]. rewrite (u32_id (e - t)) by lia. rewrite u32_i32 by lia. destruct (Z.eqb_spec (e - t) 0); lia.
  - destruct (nth_error (rws s) n) as [v|] eqn:N; [|discriminate]. destruct (rat v) as [|t|] eqn:R; try discriminate. destruct (left v) eqn:LV; [|discriminate].
    apply some_inj in H. subst s'. destruct (one_nth _ _ _ _ _ W N) as [-> ->]. eexists _, rd, kept. unfold setR. cbn [rws log rclock]. rewrite W. split; [reflexivity|]. cbn [left]. split; [congruence|auto].
Qed.
Lemma restore_order : forall now f s, 0 <= now -> rreach (rinit now [f]) s -> restored s ->
  exists kept, subseq kept f /\ subseq (filter (fresh (rclock s)) f) kept /\ Forall2 brings kept (log s).
Proof.
  intros now f s Z0 R D. assert (O : one now f s).
  { clear D. induction R as [|s e s' R IH ST]; [exists (mkRW RNot f 0), [], []; split; [reflexivity|split; [reflexivity|split; [apply sub_nil|split; [apply sub_nil|constructor]]]]|]. eapply one_step; eauto. now apply rinv_reach. }
  destruct O as (w & rd & kept & W & -> & S & G & B). assert (L : left w = []).
  { unfold restored in D. rewrite W in D. inversion D as [|? ? X]; subst. pose proof (r_ws _ _ _ (rinv_reach _ _ _ Z0 R) 0%nat w) as C. rewrite W, X in C. now apply C. }
  rewrite L, app_nil_r. exists kept. auto.
Qed.
Lemma sub_map : forall A B (f : A -> B) a b, subseq a b -> subseq (map f a) (map f b).
Proof. intros A B f a b H. induction H; cbn; [apply sub_nil|now apply sub_skip|now apply sub_take]. Qed.
Lemma sub_filter : forall A (f : A -> bool) a b, subseq a b -> subseq (filter f a) (filter f b).
Proof.
  intros A f a b H. induction H; cbn; [apply sub_nil| |].
  - destruct (f x); [now apply sub_skip|assumption].
  - destruct (f x); [now apply sub_take|assumption].
Qed.
Lemma brings_keys : forall k l, Forall2 brings k l -> map rkey k = map ikey l.
Proof. intros k l H. induction H as [|r i k l (E & _) H IH]; cbn; congruence. Qed.
Lemma fresh_recs : forall ser t T l, T <= t -> Forall (fits ser) l ->
  map okey (filter (lives t) l) = map rkey (filter (fresh t) (flat_map (recs ser) (filter (alive T) l))).
Proof.
  intros ser t T l L F. induction F as [|o l ((b & Hb) & _ & X) F IH]; [reflexivity|]. cbn. destruct (alive T o) eqn:A.
  - cbn. unfold recs at 1. rewrite Hb. cbn. assert (E : fresh t (recOf o [b]) = lives t o) by (unfold fresh, lives, recOf; cbn [rexp]; rewrite u32_i32 by lia; reflexivity).
    rewrite E. destruct (lives t o); cbn; congruence.
  - assert (E : lives t o = false).
    { unfold alive in A. apply orb_false_iff in A. destruct A as [A1 A2]. unfold lives. rewrite A1. apply Z.leb_gt in A2. apply Z.ltb_ge. lia. }
    rewrite E. exact IH.
Qed.
Lemma order_kept : forall ser cap now ps s p0 now2 s2, 0 <= now -> reach ser cap (init now ps 1) s -> at_ s = MDone -> In p0 ps -> Forall (fits ser) p0 -> clock s <= now2 ->
  rreach (rinit now2 (content s)) s2 -> restored s2 -> subseq (map okey (filter (lives (rclock s2)) p0)) (map ikey (log s2)).
Proof.
  intros ser cap now ps s p0 now2 s2 Z0 R M I F C R2 D. destruct (order _ _ _ _ _ _ R M I) as (f & E & S). pose proof (v_clk _ _ _ _ (inv_reach _ _ _ _ _ _ R)) as CL.
  assert (N2 : 0 <= now2) by lia. rewrite E in R2. destruct (restore_order _ _ _ N2 R2 D) as (kept & K1 & K2 & K3). pose proof (r_clk _ _ _ (rinv_reach _ _ _ N2 R2)) as CL2.
  rewrite (fresh_recs ser _ (clock s)) by (auto; lia). rewrite <- (brings_keys _ _ K3). apply sub_map. eapply sub_trans; [exact K2|]. now apply sub_filter.
Qed.
