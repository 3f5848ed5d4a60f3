(** What does not hold. *)
From Coq Require Import List Arith ZArith Bool Lia.
Import ListNotations.
From Verif Require Import AsyncHdl_model AsyncHdl_spec AsyncHdl_proofs1 AsyncHdl_proofs2 AsyncHdl_proofs5 AsyncHdl_proofs6 AsyncHdl_proofs7.

Section R.
Variable maxRef : nat.

(** A user blocked on a handle whose fetch is over without posting it stays blocked. *)
Definition stuck (s : state) (c : nat) : Prop :=
  c < nc s /\ cwait (ctxs s c) = true /\ cposted (ctxs s c) = false /\ fpcs (fetches s (cfetch (ctxs s c))) = FDone.

Lemma destroy_ctx : forall s c s' e d, destroyCtx s c = (s', e) -> d <> c -> ctxs s' d = ctxs s d.
Proof.
  intros s c s' e d D N. unfold destroyCtx in D.
  destruct (cval (ctxs s c)) as [[i|]|]; cbn in D; destruct (cfut (ctxs s c)) eqn:U; inversion D; try reflexivity; unfold setCtx; cbn; apply upd_diff; assumption.
Qed.
Lemma letGo_ctx : forall s c s' e d, letGo s c = (s', e) -> d <> c -> ctxs s' d = ctxs s d.
Proof.
  intros s c s' e d L N. unfold letGo in L. destruct (cshare (ctxs s c)); [inversion L; unfold setCtx; cbn; apply upd_diff; assumption|].
  rewrite (destroy_ctx _ _ _ _ _ L N). unfold setCtx; cbn. apply upd_diff; assumption.
Qed.
Lemma wake_ctx : forall s f s' e d, WF s -> f < nf s -> wake maxRef s f = Some (s', e) -> ~ In d (fwait (fetches s f)) -> ctxs s' d = ctxs s d.
Proof.
  intros s f s' e d W Hf K N. pose proof (w_ok s W f Hf) as OK. unfold fetchOK in OK. unfold wake in K.
  destruct (fpcs (fetches s f)) as [|[|c r] sb| |[|c r]|]; try discriminate.
  - inversion K; reflexivity.
  - destruct OK as (dn & Ew & _). assert (Nc : d <> c) by (intro X; subst; apply N; rewrite Ew; apply in_or_app; right; left; reflexivity).
    destruct sb as [|h b|h|].
    + destruct (fover (fetches s f)); [inversion K; reflexivity|]. destruct (fit (fetches s f)) as [i|]; [|inversion K; reflexivity].
      destruct (full maxRef s i); inversion K; reflexivity.
    + inversion K. destruct h; unfold setPc, setFetch, setCtx; cbn; apply upd_diff; assumption.
    + destruct (cfut (ctxs s c)); destruct h as [i|]; try (destruct (full maxRef s i)); inversion K; try reflexivity; unfold setPc, setFetch, setCtx; cbn; apply upd_diff; assumption.
    + inversion K. unfold setPc, setFetch, setCtx; cbn; apply upd_diff; assumption.
  - destruct (fit (fetches s f)); inversion K; reflexivity.
  - inversion K; reflexivity.
  - destruct OK as (dn & Ew & _). assert (Nc : d <> c) by (intro X; subst; apply N; rewrite Ew; apply in_or_app; right; left; reflexivity).
    destruct (chold (ctxs s c)); inversion K as [D]; [unfold setPc, setFetch, setCtx; cbn; apply upd_diff; assumption|].
    rewrite (destroy_ctx _ _ _ _ _ D Nc). unfold setPc, setFetch, setCtx; cbn; apply upd_diff; assumption.
Qed.

Lemma stuck_step : forall s a s' e c, WF s -> step maxRef s a = Some (s', e) -> stuck s c -> stuck s' c /\ forall v, ~ In (EGot c v) e.
Proof.
  intros s a s' e c W K (Hc & B & P & D).
  pose proof (smono_step maxRef s a s' e W K) as (M1 & M2 & M3 & M4).
  destruct (w_blk s W c Hc B) as (Ho & Fu). pose proof (w_cf s W c Hc) as Hf.
  assert (NM : mine s c = false).
  { unfold mine. rewrite B. rewrite andb_false_r. reflexivity. }
  assert (G : ctxs s' c = ctxs s c /\ forall v, ~ In (EGot c v) e).
  { destruct a as [|f|f|f|d|d|d|d|d|d|d|d|d|d|k|k]; cbn [step] in K.
    - inversion K as [X]; clear K. unfold doFind in X. destruct (fillmap s) as [g|]; inversion X; cbn; (split; [apply upd_diff; lia|intros v [I|[]]; discriminate]).
    - destruct (f <? nf s); [|discriminate].
      destruct (fpcs (fetches s f)); try discriminate. destruct (fit (fetches s f)); [discriminate|].
      inversion K; cbn. split; [reflexivity|intros v [I|[]]; discriminate].
    - destruct (f <? nf s); [|discriminate]. destruct (fpcs (fetches s f)); try discriminate.
      destruct (fillmap s); inversion K; cbn; (split; [reflexivity|intros v []]).
    - destruct (Nat.ltb_spec f (nf s)) as [Hg|]; [|discriminate].
      assert (N : cfetch (ctxs s c) <> f) by (intro X; subst f; unfold wake in K; rewrite D in K; discriminate).
      split.
      + eapply wake_ctx; eauto. intro I. apply (w_wait s W f c Hg) in I. destruct I; congruence.
      + intros v I. destruct (wake_evs maxRef s f s' e W Hg K) as (EO & _). 
        (* wake has no EGot *)
        clear - K I. unfold wake in K.
        assert (BAD : forall b : bool, ~ In (EGot c v) (if b then [EBad] else [])) by (intros [|] X; cbn in X; intuition discriminate).
        destruct (fpcs (fetches s f)) as [|[|c0 r] sb| |[|c0 r]|]; try discriminate.
        * inversion K; subst; destruct I.
        * destruct sb as [|h b|h|].
          -- destruct (fover (fetches s f)); [inversion K; subst; destruct I|]. destruct (fit (fetches s f)) as [i|]; [|inversion K; subst; destruct I].
             destruct (full maxRef s i); inversion K; subst; [cbn in I; intuition discriminate|eapply BAD; eauto].
          -- inversion K; subst; destruct I.
          -- destruct (cfut (ctxs s c0)); destruct h as [i|]; try (destruct (full maxRef s i)); inversion K; subst; cbn in I;
               repeat (apply in_app_or in I; destruct I as [I|I]); try (eapply BAD; eassumption); cbn in I; intuition discriminate.
          -- inversion K; subst; destruct I.
        * destruct (fit (fetches s f)); inversion K; subst; [eapply BAD; eauto|destruct I].
        * inversion K; subst. cbn in I. intuition discriminate.
        * destruct (chold (ctxs s c0)); inversion K as [X]; [subst; destruct I|].
          apply destroy_ev in X. destruct X as (_ & _ & _ & X). specialize (X _ I). intuition discriminate.
    - destruct (mine s d) eqn:Mi; inversion K; subst. split; [reflexivity|intros v [I|[]]; discriminate].
    - destruct (mine s d) eqn:Mi; inversion K; subst. split; [reflexivity|intros v [I|[]]; discriminate].
    - destruct (mine s d) eqn:Mi; [|discriminate]. assert (d <> c) by congruence.
      destruct (cval (ctxs s d)); inversion K; subst s' e; unfold setCtx; cbn; [split; [reflexivity|]|split; [apply upd_diff; auto|]]; intros v [I|[]]; inversion I; congruence.
    - destruct ((d <? nc s) && cwait (ctxs s d) && cposted (ctxs s d)) eqn:Q; [|discriminate].
      apply andb_prop in Q. destruct Q as [_ Q]. assert (d <> c) by congruence.
      destruct (cval (ctxs s d)); inversion K; subst s' e; unfold setCtx; cbn. split; [apply upd_diff; auto|]. intros v [I|[]]; inversion I; congruence.
    - destruct (mine s d) eqn:Mi; [|discriminate].
      destruct (cval (ctxs s d)) as [[i|]|]; try discriminate; [|inversion K; subst; split; [reflexivity|intros v []]].
      destruct (full maxRef s i); inversion K; subst; (split; [reflexivity|]); [intros v [I|[]]; discriminate|].
      intros v I. destruct (refs s i =? 0); cbn in I; intuition discriminate.
    - destruct (mine s d) eqn:Mi; [|discriminate]. assert (N : c <> d) by congruence.
      assert (LE : forall t t' e', letGo t d = (t', e') -> forall v, ~ In (EGot c v) e').
      { intros t t' e' L v I. unfold letGo in L. destruct (cshare (ctxs t d)); [inversion L; subst; destruct I|].
        apply destroy_ev in L. destruct L as (_ & _ & _ & X). specialize (X _ I). intuition discriminate. }
      destruct (cval (ctxs s d)) as [[i|]|]; try discriminate.
      + match type of K with Some (letGo ?t d) = _ => assert (L : letGo t d = (s', e)) by congruence end.
        split; [|eapply LE; eauto]. rewrite (letGo_ctx _ _ _ _ _ L N). cbn. apply upd_diff; assumption.
      + assert (L : letGo s d = (s', e)) by congruence. split; [eapply letGo_ctx; eauto|eapply LE; eauto].
    - destruct (mine s d) eqn:Mi; [|discriminate]. assert (N : c <> d) by congruence.
      destruct (cval (ctxs s d)); inversion K; subst s' e; unfold setCtx; cbn; [split; [reflexivity|]|split; [apply upd_diff; auto|]]; intros v [I|[]]; inversion I; congruence.
    - destruct ((d <? nc s) && chold (ctxs s d) && negb (cwait (ctxs s d))) eqn:Q; [|discriminate].
      assert (L : letGo s d = (s', e)) by congruence.
      assert (N : c <> d). { intro X; subst d. rewrite B in Q. rewrite andb_false_r in Q. discriminate. }
      split; [eapply letGo_ctx; eauto|]. intros v I. unfold letGo in L. destruct (cshare (ctxs s d)); [inversion L; subst; destruct I|].
      apply destroy_ev in L. destruct L as (_ & _ & _ & X). specialize (X _ I). intuition discriminate.
    - destruct (cfut (ctxs s d)) as [| |v| | |] eqn:U; try discriminate. destruct (d <? nc s); [|discriminate].
      assert (N : c <> d) by congruence.
      destruct v; inversion K; subst s' e; cbn; (split; [apply upd_diff; auto|intros v [I|[]]; discriminate]).
    - destruct (d <? nc s); [|discriminate]. destruct (cfut (ctxs s d)) as [| |v| | |] eqn:U; try discriminate.
      + assert (N : c <> d) by congruence. inversion K; subst s' e; cbn; (split; [apply upd_diff; auto|intros v []]).
      + assert (N : c <> d) by congruence. destruct v; inversion K; subst s' e; cbn; (split; [apply upd_diff; auto|]); [|intros v []].
        intros v I. apply in_bad in I. cbn in I. intuition discriminate.
    - destruct (nth_error (plain s) k) as [i|]; [|discriminate]. destruct (full maxRef s i); inversion K; subst; (split; [reflexivity|]); [intros v [I|[]]; discriminate|].
      intros v I. destruct (refs s i =? 0); cbn in I; intuition discriminate.
    - destruct (nth_error (plain s) k) as [i|]; [|discriminate]. inversion K; subst; (split; [reflexivity|]).
      intros v I. destruct (refs s i =? 0); cbn in I; intuition discriminate. }
  destruct G as (G1 & G2). split; [|assumption]. unfold stuck. rewrite G1. split; [lia|]. split; [assumption|]. split; [assumption|].
  destruct (M4 _ Hf) as (_ & _ & _ & E). rewrite (E D). assumption.
Qed.

Lemma stuck_run : forall acts s s' e c, WF s -> stuck s c -> run maxRef s acts = Some (s', e) -> cwait (ctxs s' c) = true /\ forall v, ~ In (EGot c v) e.
Proof.
  induction acts as [|a r IH]; intros s s' e c W S R; cbn in R.
  - inversion R; subst. split; [apply S|intros v []].
  - destruct (step maxRef s a) as [[s1 e1]|] eqn:K; [|discriminate].
    destruct (run maxRef s1 r) as [[s2 e2]|] eqn:R2; [|discriminate]. inversion R; subst s2 e.
    destruct (stuck_step s a s1 e1 c W K S) as (S1 & N1).
    destruct (IH s1 s' e2 c (WF_step maxRef s a s1 e1 W K) S1 R2) as (N2 & N3). split; [assumption|].
    intros v I. apply in_app_or in I. destruct I as [I|I]; [eapply N1|eapply N3]; eauto.
Qed.

(** k clones of handle c. *)
Lemma clones : forall k s c i, mine s c = true -> cval (ctxs s c) = Some (Some i) -> 0 < refs s i -> refs s i + k <= maxRef ->
  exists r z p, run maxRef s (repeat (AClone c) k) = Some (mkS r z (fillmap s) (fetches s) (nf s) (ctxs s) (nc s) p (nitem s), []) /\
    r i = refs s i + k.
Proof.
  induction k as [|k IH]; intros s c i Mi V P L.
  - exists (refs s), (total s), (plain s). split; [destruct s; reflexivity|lia].
  - cbn [repeat run step]. rewrite Mi, V. unfold full. destruct (Nat.leb_spec maxRef (refs s i)); [lia|]. unfold incRef.
    destruct (Nat.eqb_spec (refs s i) 0); [lia|].
    match goal with |- context [run maxRef ?t _] => destruct (IH t c i) as (r & z & p & R & E) end.
    + exact Mi.
    + exact V.
    + cbn. rewrite upd_same. lia.
    + cbn. rewrite upd_same. lia.
    + exists r, z, p. rewrite R. cbn in E. rewrite upd_same in E. split; [reflexivity|lia].
Qed.
End R.

Lemma run_cons : forall M s a l sx ex sy ey, step M s a = Some (sx, ex) -> run M sx l = Some (sy, ey) -> run M s (a :: l) = Some (sy, ex ++ ey).
Proof. intros M s a l sx ex sy ey K1 K2. cbn [run]. rewrite K1, K2. reflexivity. Qed.

Ltac st0 := unfold step, wake; cbn [nf fetches Nat.ltb Nat.leb ctxs refs]; rewrite ?upd_same.
Ltac st1 := unfold setPc, adjust, setTotal, setRefs, setCtx, setFetch, overflow; cbn [nf refs total fillmap fetches ctxs nc plain nitem]; rewrite ?upd_same; cbn [fwait fit fover]; reflexivity.

Section Post.
Variables (M : nat) (r : nat -> nat) (z : Z) (fm : option nat) (fs : nat -> fetch) (cs : nat -> ctx) (p : list nat) (ni : nat).
Hypothesis F0 : fs 0 = mkF [0; 1] (FRun [1] SClone) (Some 0) None.
Hypothesis C0 : cs 0 = mkC 0 (Some (Some 0)) true true UNone false true true.
Hypothesis RP : (r 0 =? 0) = false.

Definition post1 : list action := [AWake 0; AWake 0; AWake 0; AWake 0; AWake 0; AWake 0; AWait 1].
Lemma post1_run : cs 1 = mkC 0 None false false UNone false true true -> (M <=? r 0) = true ->
  exists s3 e3, run M (mkS r z fm fs 1 cs 2 p ni) post1 = Some (s3, e3) /\ In (EClosed 0) e3 /\ In (EBlock 1) e3 /\ (forall v, ~ In (EGot 1 v) e3) /\ stuck s3 1.
Proof.
  intros C1 LE. eexists. eexists. split.
  - unfold post1.
    eapply run_cons. { st0. rewrite F0. cbn [fpcs fover fit]. unfold full. cbn [refs]. rewrite LE. unfold overflow; cbn [fetches]. rewrite F0. st1. }
    eapply run_cons. { st0. cbn [fpcs]. st1. }
    eapply run_cons. { st0. cbn [fpcs fit fwait]. unfold decRef; cbn [refs]. rewrite RP. st1. }
    eapply run_cons. { st0. cbn [fpcs fit fwait]. rewrite C0. cbn [chold]. st1. }
    eapply run_cons. { st0. cbn [fpcs fit fwait]. rewrite (upd_diff _ _ 0 1) by discriminate. rewrite C1. cbn [chold]. st1. }
    eapply run_cons. { st0. cbn [fpcs fit fwait]. st1. }
    eapply run_cons. { cbn [step]. unfold mine. cbn [nc ctxs Nat.ltb Nat.leb]. rewrite !upd_same. cbn [withShare chold cwait cfut cval andb negb]. st1. }
    reflexivity.
  - cbn [app In]. split; [auto 10|]. split; [auto 10|]. split; [intros v H; repeat (destruct H as [H|H]; [discriminate|]); exact H|].
    unfold stuck; cbn [nc ctxs fetches]. rewrite !upd_same. cbn [withShare withWait cwait cposted cfetch]. rewrite ?upd_same. repeat split; auto.
Qed.

Lemma destroy_broken : forall s c i, cval (ctxs s c) = Some (Some i) -> cfut (ctxs s c) = UPend ->
  exists s' e, destroyCtx s c = (s', e) /\ In (EBroken c) e.
Proof.
  intros s c i V U. unfold destroyCtx. rewrite V, U. destruct (decRef (adjust s 1) i) as [s1 e1].
  eexists. eexists. split; [reflexivity|]. cbn [app]. apply in_or_app. right. left. reflexivity.
Qed.
Definition post2 : list action := [AWake 0; AWake 0; AWake 0; AWake 0; AWake 0; AWake 0; AWake 0].
Lemma post2_run : cs 1 = mkC 0 None false false UPend false false true -> (M <=? r 0) = false -> (M <=? S (r 0)) = true ->
  exists s3 e3, run M (mkS r z fm fs 1 cs 2 p ni) post2 = Some (s3, e3) /\ In (EBroken 1) e3.
Proof.
  intros C1 LF LE.
  assert (X : exists s3 e3, run M (mkS r z fm fs 1 cs 2 p ni) [AWake 0; AWake 0; AWake 0; AWake 0; AWake 0; AWake 0] = Some (s3, e3) /\
     nf s3 = 1 /\ fpcs (fetches s3 0) = FDrop [1] /\ ctxs s3 1 = mkC 0 (Some (Some 0)) true false UPend false false true).
  { eexists. eexists. split.
    -
      eapply run_cons. { st0. rewrite F0. cbn [fpcs fover fit]. unfold full. cbn [refs]. rewrite LF. unfold incRef; cbn [refs]. rewrite RP. unfold setPc, setTotal, setRefs; cbn [fetches]. rewrite F0. st1. }
      eapply run_cons. { st0. cbn [fpcs]. rewrite C1. unfold withFlag, withVal. cbn [cfetch cposted cfut cwait chold cshare cval cflag]. st1. }
      eapply run_cons. { st0. cbn [fpcs cfut]. unfold full. cbn [refs]. rewrite !upd_same, LE. st1. }
      eapply run_cons. { st0. cbn [fpcs]. st1. }
      eapply run_cons. { st0. cbn [fpcs fit fwait]. unfold decRef; cbn [refs]. rewrite upd_same; cbn [Nat.eqb]. st1. }
      eapply run_cons. { st0. cbn [fpcs fit fwait]. rewrite (upd_diff _ _ 1 0) by discriminate. rewrite C0. cbn [chold]. st1. }
      reflexivity.
    - cbn [nf fetches ctxs]. rewrite upd_same. rewrite (upd_diff _ _ 0 1) by discriminate. rewrite upd_same. auto. }
  destruct X as (s3 & e3 & R & N & P & C).
  set (s4 := setPc (setCtx s3 1 (withShare (ctxs s3 1) false)) 0 (FDrop [])).
  destruct (destroy_broken s4 1 0) as (s5 & e5 & D & I).
  { unfold s4, setPc, setFetch, setCtx; cbn [ctxs]. rewrite upd_same, C. reflexivity. }
  { unfold s4, setPc, setFetch, setCtx; cbn [ctxs]. rewrite upd_same, C. reflexivity. }
  exists s5, (e3 ++ e5 ++ []). split; [|apply in_or_app; right; apply in_or_app; left; exact I].
  change post2 with ([AWake 0; AWake 0; AWake 0; AWake 0; AWake 0; AWake 0] ++ [AWake 0]).
  eapply run_app; [exact R|]. eapply run_cons; [|reflexivity]. cbn [step]. rewrite N. cbn [Nat.ltb Nat.leb]. unfold wake. rewrite P, C. cbn [chold].
  rewrite <- C. fold s4. rewrite D. reflexivity.
Qed.
End Post.

Definition pre1 : list action := [AFind; AFind; AFill 0; AClose 0; AWake 0; AWake 0; AWake 0; AWake 0].
Lemma pre1_run : forall m, exists s1 e1, run (S (S m)) init pre1 = Some (s1, e1) /\
    mine s1 0 = true /\ cval (ctxs s1 0) = Some (Some 0) /\ refs s1 0 = 2 /\ e1 = [EFind 0 0; EFind 1 0; EFilled 0 0] /\
    fetches s1 0 = mkF [0; 1] (FRun [1] SClone) (Some 0) None /\ nf s1 = 1 /\ nc s1 = 2 /\
    ctxs s1 1 = mkC 0 None false false UNone false true true /\ ctxs s1 0 = mkC 0 (Some (Some 0)) true true UNone false true true.
Proof. intro m. eexists. eexists. split; [vm_compute; reflexivity|]. repeat split; vm_compute; reflexivity. Qed.

Theorem overflow_blocks : forall maxRef, 2 <= maxRef -> exists s tr,
  history maxRef s tr /\ In (EFind 1 0) tr /\ In (EFilled 0 0) tr /\ In (EClosed 0) tr /\ In (EBlock 1) tr /\
  forall acts s' e, run maxRef s acts = Some (s', e) -> cwait (ctxs s' 1) = true /\ forall v, ~ In (EGot 1 v) (tr ++ e).
Proof.
  intros m Hm. destruct m as [|[|m]]; [lia|lia|].
  destruct (pre1_run m) as (s1 & e1 & R1 & A1 & A2 & A3 & A4 & A5 & A6 & A7 & A8 & A9).
  remember (S (S m)) as M eqn:EM.
  destruct (clones M m s1 0 0 A1 A2) as (r & z & p & R2 & E); [lia|lia|].
  rewrite A6, A7 in R2.
  destruct (post1_run M r z (fillmap s1) (fetches s1) (ctxs s1) p (nitem s1) A5 A9) as (s3 & e3 & R3 & I1 & I2 & I3 & St);
    [apply Nat.eqb_neq; lia|assumption|apply Nat.leb_le; lia|].
  assert (R : run M init (pre1 ++ repeat (AClone 0) m ++ post1) = Some (s3, e1 ++ [] ++ e3)).
  { eapply run_app; [exact R1|]. eapply run_app; [exact R2|exact R3]. }
  assert (H : history M s3 (e1 ++ [] ++ e3)) by (eexists; exact R). clear R R1 R2 R3.
  exists s3, (e1 ++ [] ++ e3). split; [assumption|].
  split; [rewrite A4; cbn [app In]; auto|]. split; [rewrite A4; cbn [app In]; auto|]. split; [apply in_or_app; right; exact I1|]. split; [apply in_or_app; right; exact I2|].
  intros acts s' e K. apply history_inv in H. destruct H as (A & _).
  destruct (stuck_run M acts s3 s' e 1 (AsyncHdl_proofs4.a_wf _ _ A) St K) as (B1 & B2). split; [assumption|].
  intros v I. apply in_app_or in I. destruct I as [I|I]; [|eapply B2; eauto]. apply in_app_or in I. destruct I as [I|I]; [|eapply I3; eauto].
  rewrite A4 in I. destruct I as [I|[I|[I|[]]]]; discriminate I.
Qed.

Definition pre2 : list action := [AFind; AFind; AConvert 1; AReset 1; AFill 0; AClose 0; AWake 0; AWake 0; AWake 0; AWake 0].
Lemma pre2_run : forall m, exists s1 e1, run (S (S (S m))) init pre2 = Some (s1, e1) /\
    mine s1 0 = true /\ cval (ctxs s1 0) = Some (Some 0) /\ refs s1 0 = 2 /\ e1 = [EFind 0 0; EFind 1 0; EConv 1; EFilled 0 0] /\
    fetches s1 0 = mkF [0; 1] (FRun [1] SClone) (Some 0) None /\ nf s1 = 1 /\ nc s1 = 2 /\
    ctxs s1 1 = mkC 0 None false false UPend false false true /\ ctxs s1 0 = mkC 0 (Some (Some 0)) true true UNone false true true.
Proof. intro m. eexists. eexists. split; [vm_compute; reflexivity|]. repeat split; vm_compute; reflexivity. Qed.

Theorem overflow_breaks : forall maxRef, 3 <= maxRef -> exists s tr,
  history maxRef s tr /\ In (EFind 1 0) tr /\ In (EFilled 0 0) tr /\ In (EConv 1) tr /\ In (EBroken 1) tr.
Proof.
  intros m Hm. destruct m as [|[|[|m]]]; [lia|lia|lia|].
  destruct (pre2_run m) as (s1 & e1 & R1 & A1 & A2 & A3 & A4 & A5 & A6 & A7 & A8 & A9).
  remember (S (S (S m))) as M eqn:EM.
  destruct (clones M m s1 0 0 A1 A2) as (r & z & p & R2 & E); [lia|lia|].
  rewrite A6, A7 in R2.
  destruct (post2_run M r z (fillmap s1) (fetches s1) (ctxs s1) p (nitem s1) A5 A9) as (s3 & e3 & R3 & I1);
    [apply Nat.eqb_neq; lia|assumption|apply Nat.leb_gt; lia|apply Nat.leb_le; lia|].
  exists s3, (e1 ++ [] ++ e3). split; [eexists; eapply run_app; [exact R1|]; eapply run_app; [exact R2|exact R3]|].
  rewrite A4. cbn [app In]. auto 20.
Qed.

Definition sc3 : list action :=
  [AFind; AConvert 0; AReset 0; AFill 0; AClose 0; AWake 0; AWake 0; AWake 0; AWake 0; AWake 0; AWake 0; AWake 0; AWake 0; ADropFut 0].
Lemma sc3_run : forall m, exists s e, run (S (S (S m))) init sc3 = Some (s, e) /\ quiet s /\ total s = (-1)%Z.
Proof.
  intro m. eexists. eexists. split; [vm_compute; reflexivity|]. split; [|reflexivity]. split; [reflexivity|]. split.
  - intros c Hc. cbn in Hc. destruct c; [|lia]. split; [reflexivity|]. intros i. cbn. discriminate.
  - intros f Hf. cbn in Hf. destruct f; [|lia]. reflexivity.
Qed.
Theorem dropped_future : forall maxRef, 3 <= maxRef -> exists s tr,
  history maxRef s tr /\ quiet s /\ (forall i, refs s i = 0) /\ total s = (-1)%Z /\ shutdown_refused s.
Proof.
  intros m Hm. destruct m as [|[|[|m]]]; [lia|lia|lia|].
  destruct (sc3_run m) as (s & e & R & Q & T0).
  exists s, e. assert (H : history (S (S (S m))) s e) by (eexists; exact R). split; [assumption|].
  assert (Q' : quiet s /\ total s = (-1)%Z) by auto. clear Q T0. rename Q' into Q.
  destruct Q as (Q & T). split; [assumption|]. apply no_bad in H. destruct H as (_ & _ & H). destruct (H Q) as (H1 & _).
  split; [assumption|]. split; [assumption|]. unfold shutdown_refused. rewrite T. discriminate.
Qed.

Theorem went_pending : forall maxRef, exists s tr, history maxRef s tr /\ In (EFind 0 0) tr /\ In (EWent 0 false false) tr.
Proof. intro m. eexists. eexists. split; [exists [AFind; AWent 0]; reflexivity|]. cbn. auto. Qed.
