From Coq Require Import ZifyBool ZifyNat ZifyN.
From Verif Require Import Bytes BucketStorage_model BucketStorage_proofs
  Bucket_model Bucket_spec Bucket_proofs Bucket_client.

Lemma bstep_ok s es o : RepB s es -> bop_ok (scap s) o ->
  exists s', bstep s o = Some (s', snd (bspec (scap s) es o))
    /\ scap s' = scap s /\ RepB s' (fst (bspec (scap s) es o)).
Proof.
  intros HR Hok. destruct o as [e c|k|k]; cbn [bstep bspec bop_ok] in *.
  - destruct Hok as [Hc Hw]. pose proof (insert_ok s es e c HR Hc Hw) as H.
    change (opt_expired c) with (expired_of c) in H.
    destruct (insert_spec (scap s) (expired_of c) es e) as [[after dead] ev].
    destruct H as (s' & E & C & R). rewrite E. exists s'. auto.
  - destruct (remove_ok s es k HR) as (s' & E & C & R). rewrite E.
    destruct (remove_spec es k) as [rest gone]. exists s'. auto.
  - rewrite (find_spec s es k HR). exists s. auto.
Qed.

Lemma brun_ok : forall ops s es, RepB s es -> Forall (bop_ok (scap s)) ops ->
  exists s', brun s ops = Some (s', snd (bspec_run (scap s) es ops))
    /\ scap s' = scap s /\ RepB s' (fst (bspec_run (scap s) es ops)).
Proof.
  induction ops as [|o ops IH]; intros s es HR Hok; cbn [brun bspec_run].
  - exists s. auto.
  - inversion Hok as [|? ? Ho Hops]; subst.
    destruct (bstep_ok s es o HR Ho) as (s1 & E & C & R). rewrite E.
    destruct (bspec (scap s) es o) as [l1 x]. cbn [fst snd] in *.
    rewrite <- C in Hops. destruct (IH s1 l1 R Hops) as (s2 & E2 & C2 & R2). rewrite E2, C in *.
    destruct (bspec_run (scap s) l1 ops) as [l2 xs]. cbn [fst snd] in *.
    exists s2. repeat split; auto; try congruence; apply R2.
Qed.

Lemma bucket_refines_l (mem : list byte) (ops : list bop) :
  (N.of_nat (length mem) < two32)%N ->
  Forall (bop_ok (length mem)) ops ->
  let '(live, outs) := bspec_run (length mem) [] ops in
  exists s, brun (initStorage mem) ops = Some (s, outs) /\ entries s = Some live
    /\ cost_all live <= length mem.
Proof.
  intros Hm Hok. pose proof (brun_ok ops (initStorage mem) [] (initB mem Hm) Hok) as (s & E & C & R).
  change (scap (initStorage mem)) with (length mem) in *.
  destruct (bspec_run (length mem) [] ops) as [live outs]. cbn [fst snd] in *.
  exists s. split; [exact E|]. split; [now apply entries_spec|].
  pose proof (rep_fit _ _ (repb_rep _ _ R)) as H. rewrite used_cost in H. lia.
Qed.

Lemma lookup_spec_plain l k v :
  lookup_spec l k = Some v <->
  exists a e b, l = a ++ e :: b /\ ekey e = k /\ eval e = v /\ (forall x, In x a -> ekey x <> k).
Proof.
  induction l as [|x l IH]; cbn [lookup_spec].
  - split; [discriminate|]. intros (a & e & b & H & _). destruct a; discriminate.
  - destruct (hkey_eqb k (ekey x)) eqn:E.
    + apply hkey_eqb_eq in E. split.
      * intros [= <-]. exists [], x, l. repeat split; auto.
      * intros (a & e & b & H & Hk & Hv & Hn). destruct a as [|y a]; cbn in H; inversion H; subst.
        { reflexivity. }
        { exfalso. apply (Hn y); [now left|reflexivity]. }
    + assert (ekey x <> k).
      { intros <-. rewrite (proj2 (hkey_eqb_eq (ekey x) (ekey x)) eq_refl) in E. discriminate. }
      rewrite IH. split.
      * intros (a & e & b & -> & Hk & Hv & Hn). exists (x :: a), e, b. repeat split; auto.
        intros y [<-|Hy]; auto.
      * intros (a & e & b & H0 & Hk & Hv & Hn). destruct a as [|y a]; cbn in H0; inversion H0; subst.
        { congruence. }
        exists a, e, b. repeat split; auto. intros z Hz. apply Hn. now right.
Qed.

Lemma remove_spec_plain l k :
  (exists a e b, l = a ++ e :: b /\ ekey e = k /\ (forall x, In x a -> ekey x <> k)
                 /\ remove_spec l k = (a ++ b, [e]))
  \/ ((forall x, In x l -> ekey x <> k) /\ remove_spec l k = (l, [])).
Proof.
  induction l as [|x l IH]; cbn [remove_spec].
  - right. split; [intros ? []|reflexivity].
  - destruct (hkey_eqb k (ekey x)) eqn:E.
    + apply hkey_eqb_eq in E. left. exists [], x, l. subst; repeat split; auto.
    + assert (ekey x <> k).
      { intros <-. rewrite (proj2 (hkey_eqb_eq (ekey x) (ekey x)) eq_refl) in E. discriminate. }
      destruct IH as [(a & e & b & -> & Hk & Hn & ->)|[Hn ->]].
      * left. exists (x :: a), e, b. repeat split; auto. intros y [<-|Hy]; auto.
      * right. split; [|reflexivity]. intros y [<-|Hy]; auto.
Qed.

Lemma make_room_minimal cap need l : need <= cap ->
  let '(ev, kept) := make_room cap need l in
  l = ev ++ kept /\ cost_all kept + need <= cap /\
  (forall n, n < length ev -> cap < cost_all (skipn n l) + need).
Proof.
  intros Hn. pose proof (make_room_fits cap need l Hn) as Hf.
  pose proof (make_room_split cap need l Hn) as Hs.
  destruct (make_room cap need l) as [ev kept] eqn:E. cbn [fst snd] in *.
  split; [exact Hs|]. split; [exact Hf|]. clear Hs Hf.
  revert ev kept E. induction l as [|e l IH]; intros ev kept E n Hlt; cbn [make_room] in E.
  - destruct (cost_all [] + need <=? cap); inversion E; subst; cbn in Hlt; lia.
  - destruct (Nat.leb_spec (cost_all (e :: l) + need) cap) as [H|H].
    + inversion E; subst; cbn in Hlt; lia.
    + destruct (make_room cap need l) as [ev' k'] eqn:E'. inversion E; subst.
      destruct n as [|n]; [cbn [skipn]; lia|]. cbn [skipn]. eapply IH; eauto.
      cbn in Hlt. lia.
Qed.

Lemma insert_spec_plain cap expired l e : cost e <= cap ->
  let '(after, dead, ev) := insert_spec cap expired l e in
  (cost_all l + cost e <= cap -> after = l ++ [e] /\ dead = [] /\ ev = []) /\
  (cap < cost_all l + cost e ->
     dead = filter (fun x => expired (eval x)) l /\
     exists kept, filter (fun x => negb (expired (eval x))) l = ev ++ kept
       /\ after = kept ++ [e] /\ cost_all kept + cost e <= cap
       /\ forall n, n < length ev -> cap < cost_all (skipn n (ev ++ kept)) + cost e).
Proof.
  intros Hc. unfold insert_spec.
  destruct (Nat.leb_spec (cost_all l + cost e) cap) as [H|H].
  - split; [auto|]. lia.
  - pose proof (make_room_minimal cap (cost e) (filter (fun x => negb (expired (eval x))) l) Hc) as Hm.
    destruct (make_room _ _ _) as [ev kept]. destruct Hm as (E & Hf & Hmin).
    split; [lia|]. intros _. split; [reflexivity|]. exists kept. rewrite <- E. auto.
Qed.

Lemma random_key_refuted_l :
  exists (mem : list byte) (e : entry) (s : storage) out (off : nat) k v,
    brun (initStorage mem) [BInsert e None] = Some (s, out)
    /\ entries s = Some [e]
    /\ getRandomAlloc s off = Some (Some (k, v))
    /\ v = eval e /\ k <> kbytes (ekey e) /\ find s {| kbytes := k; khash := khash (ekey e) |} = Some None.
Proof.
  exists (repeat 0%N 64), {| ekey := {| kbytes := [107;49]%N; khash := 5 |}; eval := [118;50]%N |}.
  do 2 eexists. exists 0, [107;49;118;50]%N, [118;50]%N.
  split; [vm_compute; reflexivity|].
  repeat split; try (vm_compute; reflexivity). discriminate.
Qed.

Lemma random_key_ub_l :
  exists (mem : list byte) (e : entry) (s : storage) out (off : nat),
    brun (initStorage mem) [BInsert e None] = Some (s, out)
    /\ entries s = Some [e] /\ getRandomAlloc s off = None.
Proof.
  exists (repeat 255%N 24), {| ekey := {| kbytes := [107;49]%N; khash := 5 |}; eval := [118;50]%N |}.
  do 2 eexists. exists 0.
  split; [vm_compute; reflexivity|]. repeat split; vm_compute; reflexivity.
Qed.
