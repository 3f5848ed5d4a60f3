From Verif Require Import CCache_model CCache_spec CCacheF_proofs CCacheV2_proofs CCacheV5_proofs CCacheV4_proofs.
From Coq Require Import Permutation.
Ltac Zify.zify_post_hook ::= idtac.

Notation has k := (existsb (fun e : N * list byte => (fst e =? k)%N)).

Lemma has_in k l : has k l = true <-> In k (keys l).
Proof.
  rewrite existsb_exists. unfold keys. rewrite in_map_iff. split.
  - intros (x & HI & HE). apply N.eqb_eq in HE. eauto.
  - intros (x & HE & HI). exists x. rewrite HE, N.eqb_refl. auto.
Qed.
Lemma lookup_in l k : lookup l k = None <-> ~ In k (keys l).
Proof.
  split; [apply lookup_none|]. induction l as [|[x y] l IH]; cbn; [reflexivity|].
  intros H. destruct (N.eqb_spec x k); [intuition|]. apply IH. tauto.
Qed.
Lemma lookup_In l k v : NoDup (keys l) -> In (k, v) l -> lookup l k = Some v.
Proof.
  induction l as [|[x y] l IH]; cbn; intros HD HI; [tauto|]. inversion HD as [|? ? H1 H2].
  destruct HI as [E|HI].
  - injection E as -> ->. now rewrite N.eqb_refl.
  - destruct (N.eqb_spec x k) as [->|]; [|auto]. exfalso. apply H1. apply in_map_iff. exists (k, v). auto.
Qed.
Lemma lookup_app a c k : lookup (a ++ c) k = match lookup a k with Some v => Some v | None => lookup c k end.
Proof. induction a as [|[x y] a IH]; cbn; [reflexivity|]. destruct (_ =? _)%N; auto. Qed.
Lemma lookup_firstn l n k : NoDup (keys l) ->
  lookup (firstn n l) k = if has k (skipn n l) then None else lookup l k.
Proof.
  intros HD. destruct (has k (skipn n l)) eqn:E.
  - apply has_in in E. apply lookup_in. intros C. rewrite <- (firstn_skipn n l), keys_app in HD.
    exact (nodup_disj _ _ _ HD C E).
  - rewrite <- (firstn_skipn n l) at 2. rewrite lookup_app.
    assert (lookup (skipn n l) k = None) as ->.
    { apply lookup_in. intros C. apply has_in in C. congruence. }
    now destruct (lookup _ _).
Qed.
Lemma lookup_without l k k' : lookup (without k' l) k = if (k' =? k)%N then None else lookup l k.
Proof.
  induction l as [|[x y] l IH].
  - cbn. now destruct (_ =? _)%N.
  - change (without k' ((x, y) :: l)) with (if negb (x =? k')%N then (x, y) :: without k' l else without k' l).
    cbn [lookup]. destruct (N.eqb_spec x k') as [->|Hn]; cbn.
    + rewrite IH. now destruct (N.eqb_spec k' k).
    + destruct (N.eqb_spec x k) as [->|]; [|assumption]. destruct (N.eqb_spec k' k); [congruence|reflexivity].
Qed.
Lemma keys_without k l : NoDup (keys l) -> NoDup (keys (without k l)).
Proof.
  unfold without. induction l as [|[x y] l IH]; cbn; intros H; [assumption|]. inversion H as [|? ? H1 H2].
  destruct (x =? k)%N; cbn; [auto|]. constructor; [|auto]. intros C. apply H1.
  unfold keys in *. apply in_map_iff in C as (e & E & HI). apply filter_In in HI as [HI _]. apply in_map_iff. eauto.
Qed.
Lemma has_rev k l : has k (rev l) = has k l.
Proof.
  destruct (has k l) eqn:E.
  - apply has_in. apply has_in in E. unfold keys in *. rewrite map_rev. now apply -> in_rev.
  - apply Bool.not_true_is_false. intros C. apply has_in in C. unfold keys in C. rewrite map_rev in C.
    apply in_rev in C. apply has_in in C. congruence.
Qed.
Lemma lookup_set l k k' v w : lookup l k' = Some w -> 
  lookup (setInPlace k' v l) k = if (k' =? k)%N then Some v else lookup l k.
Proof.
  induction l as [|[x y] l IH]; cbn; [discriminate|]. destruct (N.eqb_spec x k') as [->|Hn]; cbn; intros E.
  - destruct (N.eqb_spec k' k) as [->|Hk]; [reflexivity|]. clear - Hk. induction l as [|[x y'] l IH]; cbn; [reflexivity|].
    destruct (N.eqb_spec x k') as [->|]; cbn.
    + destruct (N.eqb_spec k' k); [congruence|assumption].
    + destruct (N.eqb_spec x k); [reflexivity|assumption].
  - destruct (N.eqb_spec x k) as [->|Hk]; [|auto]. destruct (N.eqb_spec k' k); [congruence|reflexivity].
Qed.

(** the common part: a step tells the truth *)
Definition StepOK (sp : list (N * list byte) -> op -> list (N * list byte) * ret * list (N * list byte)) :=
  forall l o l' r ev, NoDup (keys l) -> sp l o = (l', r, ev) ->
    (forall k, lookup l' k = known1 k (lookup l k) o ev) /\
    match o with
    | OGet k | ODel k => r = answer (lookup l k)
    | OSet k _ | OPromote k => r = match lookup l k with Some _ => RFound None | None => RNotFound end
    end /\
    (forall k v, In (k, v) ev -> lookup l k = Some v) /\ NoDup (map fst ev).

Lemma promote_lookup l k k' v : lookup l k' = Some v -> lookup ((k', v) :: without k' l) k = lookup l k.
Proof.
  intros E. cbn. destruct (N.eqb_spec k' k) as [<-|Hn]; [now symmetry|]. rewrite lookup_without.
  destruct (N.eqb_spec k' k); [congruence|reflexivity].
Qed.
Lemma skip_nd n l : NoDup (keys l) -> NoDup (map fst (skipn n l)).
Proof.
  intros H. rewrite <- (firstn_skipn n l), keys_app in H. apply NoDup_rev in H. rewrite rev_app_distr in H.
  apply nodup_l, NoDup_rev in H. now rewrite rev_involutive in H.
Qed.
Lemma skip_in n (l : list (N * list byte)) x : In x (skipn n l) -> In x l.
Proof. intros H. rewrite <- (firstn_skipn n l). apply in_or_app. now right. Qed.

Lemma fspec_ok cap : StepOK (fspec cap).
Proof.
  intros l o l' r ev ND. destruct o as [k' v|k'|k'|k']; cbn [fspec].
  - destruct (lookup l k') as [w|] eqn:E; intros H; injection H as <- <- <-.
    + split; [|split; [reflexivity|split; [intros ? ? []|constructor]]].
      intros k. unfold known1. cbn [existsb]. now apply lookup_set with (w := w).
    + split; [|split; [reflexivity|split]].
      * intros k. unfold known1. cbn [lookup]. rewrite lookup_firstn by assumption.
        destruct (N.eqb_spec k' k) as [<-|Hn]; [|reflexivity].
        destruct (has k' (skipn (cap - 1) l)) eqn:Eh; [|reflexivity]. exfalso.
        apply has_in in Eh. apply lookup_in in E. apply E. unfold keys in *.
        apply in_map_iff in Eh as (e & E1 & E2). apply in_map_iff. exists e. split; [assumption|]. now apply skip_in in E2.
      * intros k w HI. apply lookup_In; [assumption|]. now apply skip_in in HI.
      * now apply skip_nd.
  - intros H; injection H as <- <- <-. split; [reflexivity|]. split; [now destruct (lookup l k')|]. split; [intros ? ? []|constructor].
  - destruct (lookup l k') as [w|] eqn:E; intros H; injection H as <- <- <-.
    + split; [|split; [reflexivity|split; [intros ? ? []|constructor]]]. intros k. unfold known1. cbn [existsb].
      destruct (behind _ _ _); [|reflexivity]. now apply promote_lookup.
    + split; [reflexivity|]. split; [reflexivity|]. split; [intros ? ? []|constructor].
  - destruct (lookup l k') as [w|] eqn:E; intros H; injection H as <- <- <-.
    + split; [|split; [reflexivity|split; [intros ? ? []|constructor]]]. intros k. unfold known1. cbn [existsb]. apply lookup_without.
    + split; [|split; [reflexivity|split; [intros ? ? []|constructor]]]. intros k. unfold known1. cbn [existsb].
      now destruct (N.eqb_spec k' k) as [<-|].
Qed.
Lemma vspec_ok hsz maxv : StepOK (vspec hsz maxv).
Proof.
  intros l o l' r ev ND. destruct o as [k' v|k'|k'|k']; cbn [vspec].
  - set (l0 := without k' l). set (n := keep _ _ _ _ _).
    assert (ND0 : NoDup (keys l0)) by now apply keys_without.
    intros H; injection H as <- <- <-. split; [|split; [reflexivity|split]].
    + intros k. unfold known1. cbn [lookup]. rewrite lookup_firstn, has_rev by assumption.
      unfold l0 at 2. rewrite lookup_without.
      destruct (N.eqb_spec k' k) as [<-|Hn]; [|reflexivity].
      destruct (has k' (skipn n l0)) eqn:Eh; [|reflexivity]. exfalso.
      apply has_in in Eh. assert (C : ~ In k' (keys l0)) by (apply lookup_in; unfold l0; rewrite lookup_without, N.eqb_refl; reflexivity).
      apply C. unfold keys in *.
      apply in_map_iff in Eh as (e & E1 & E2). apply in_map_iff. exists e. split; [assumption|]. now apply skip_in in E2.
    + intros k w HI. apply in_rev in HI. apply lookup_In; [assumption|]. apply skip_in in HI. unfold l0, without in HI.
      now apply filter_In in HI.
    + rewrite map_rev. apply NoDup_rev. now apply skip_nd.
  - intros H; injection H as <- <- <-. split; [reflexivity|]. split; [now destruct (lookup l k')|]. split; [intros ? ? []|constructor].
  - destruct (lookup l k') as [w|] eqn:E; intros H; injection H as <- <- <-.
    + split; [|split; [reflexivity|split; [intros ? ? []|constructor]]]. intros k. unfold known1. cbn [existsb].
      destruct (behind _ _ _); [|reflexivity]. now apply promote_lookup.
    + split; [reflexivity|]. split; [reflexivity|]. split; [intros ? ? []|constructor].
  - destruct (lookup l k') as [w|] eqn:E; intros H; injection H as <- <- <-.
    + split; [|split; [reflexivity|split; [intros ? ? []|constructor]]]. intros k. unfold known1. cbn [existsb]. apply lookup_without.
    + split; [|split; [reflexivity|split; [intros ? ? []|constructor]]]. intros k. unfold known1. cbn [existsb].
      now destruct (N.eqb_spec k' k) as [<-|].
Qed.

Lemma honest_ext os : forall f g outs, (forall k, f k = g k) -> honest f os outs -> honest g os outs.
Proof.
  induction os as [|o os IH]; intros f g [|[r ev] outs] E; cbn; auto.
  intros (A & B & C & D). split; [|split; [|split]].
  - destruct o; now rewrite <- E.
  - intros k v HI. rewrite <- E. auto.
  - assumption.
  - eapply IH; [|exact D]. intros k. cbn. now rewrite E.
Qed.
Lemma honest_gen {B} sp (step : B -> op -> option (B * ret * list (N * list byte))) (RR : B -> list (N * list byte) -> Prop) (Leg : op -> Prop) :
  StepOK sp -> (forall b l, RR b l -> NoDup (keys l)) ->
  (forall b l o, RR b l -> Leg o ->
     exists b' l' r ev, step b o = Some (b', r, ev) /\ sp l o = (l', r, ev) /\ RR b' l') ->
  forall os b l, RR b l -> Forall Leg os ->
  exists b' outs l', hist step b os = Some (b', outs) /\ honest (lookup l) os outs /\ RR b' l' /\
    (forall k, lookup l' k = known k (lookup l k) os outs).
Proof.
  intros HS HN HT. induction os as [|o os IH]; intros b l HR HL; cbn.
  - exists b, [], l. auto.
  - inversion HL as [|? ? L1 L2]. destruct (HT b l o HR L1) as (b' & l' & r & ev & E1 & E2 & R').
    destruct (HS l o l' r ev (HN _ _ HR) E2) as (K & A & C & D).
    destruct (IH b' l' R' L2) as (b'' & outs & l'' & E3 & HH & R'' & K').
    rewrite E1, E3. exists b'', ((r, ev) :: outs), l''. split; [reflexivity|]. split; [|split; [assumption|]].
    + split; [assumption|]. split; [assumption|]. split; [assumption|]. eapply honest_ext; [|exact HH]. exact K.
    + intros k. rewrite K', K. reflexivity.
Qed.
