(** Proofs for C15, part 8: histories, counting. *)
From Verif Require Import Bytes DList_model DList_spec Chain_model Chain_spec Chain_proofs Chain_proofs3 Chain_proofs4 Chain_proofs7.
Ltac Zify.zify_post_hook ::= idtac.

Ltac mss2 := repeat match goal with
  | H : incRef _ _ = Some _ |- _ => apply incRef_ms in H
  | H : decRef _ _ = Some _ |- _ => apply decRef_ms in H
  | H : freeMem _ _ = Some _ |- _ => apply freeMem_ms in H
  | H : insertOrReplace _ _ = Some _ |- _ => apply ior_ms in H
  | H : tblRemove _ _ = _ |- _ => apply tblRemove_ms in H
  | H : findChained _ _ = Some _ |- _ => apply findChained_ms in H
  | H : freeChain _ _ _ _ _ = Some _ |- _ => apply freeChain_ms in H
  end; nrm; try congruence.
Lemma releaseBack_ms s n nas rec s' b : releaseBack s n nas rec = Some (s', b) -> msize s' = msize s.
Proof.
  unfold releaseBack. intros X. destruct (negb _); [discriminate|]. destruct (ischained (it s n)); [destruct rec; [discriminate|]; ms; mss2|].
  assert (A : forall s1, (if nas then Some s else let* l := viewChain s n in Some (say s (ECb n l))) = Some s1 -> msize s1 = msize s).
  { intros s1 Y. destruct nas; [injection Y as <-; reflexivity|]. ms; reflexivity. }
  destruct (if nas then Some s else _) as [s1|]; [|discriminate]. specialize (A s1 eq_refl).
  assert (C : forall s2 rc, (if haschain (it s n) then
         let* (t1, hd) := findChained s1 n in let* h := hd in let* t2 := decRef t1 h in
         if negb (parent (it t2 h) =? n) then None
         else let (t3, ok) := tblRemove t2 h in
              if negb ok then None else freeChain (S (msize s)) t3 (Some h) rec false
       else Some (s1, false)) = Some (s2, rc) -> msize s2 = msize s1).
  { intros s2 rc Y. destruct (haschain (it s n)); [|injection Y as <- <-; reflexivity].
    destruct (findChained s1 n) as [[t1 hd]|] eqn:E1; [|discriminate]. destruct hd as [h|]; [|discriminate].
    destruct (decRef t1 h) as [t2|] eqn:E2; [|discriminate]. destruct (negb _); [discriminate|].
    destruct (tblRemove t2 h) as [t3 ok] eqn:E3. destruct (negb ok); [discriminate|]. mss2. }
  match goal with H : (let* _ := ?e in _) = _ |- _ => destruct e as [[s2 rc]|]; [|discriminate] end.
  specialize (C s2 rc eq_refl). cbn in X. destruct rec as [r|]; [destruct (n =? r)|]; ms; mss2.
Qed.
Lemma release_ms s n nas s' : release s n nas = Some s' -> msize s' = msize s.
Proof.
  unfold release. intros X. destruct (decRef s n) as [s1|] eqn:E1; [|discriminate]. cbn in X.
  destruct (_ && _ && _); [destruct (releaseBack s1 n nas None) as [[s2 b]|] eqn:E2; [|discriminate]; apply releaseBack_ms in E2|]; ms; mss2.
Qed.
Lemma alloc_ms s n i s' : alloc s n i = Some s' -> msize s' = msize s. Proof. unfold alloc. destruct (_ || _); [discriminate|]. intros [= <-]. reflexivity. Qed.
Lemma rekey_ms p fuel : forall s cur s' b, rekey fuel s cur p = Some (s', b) -> msize s' = msize s.
Proof.
  induction fuel as [|f IH]; intros s cur s' b X; destruct cur as [c|]; cbn [rekey] in X; try discriminate; try (injection X as <- _; reflexivity).
  destruct (live s c); [|discriminate]. destruct (acc (it s c)); [injection X as <- _; reflexivity|]. apply IH in X. exact X.
Qed.
Ltac one := match goal with
  | H : (let* _ := ?e in _) = Some _ |- _ => match type of e with option (_ * _) => destruct e as [[? ?]|] eqn:? | _ => destruct e eqn:? end; [|discriminate H]
  | H : match ?e with _ => _ end = Some _ |- _ => destruct e eqn:?; try discriminate H
  end.
Ltac fin := repeat match goal with
  | H : release _ _ _ = Some _ |- _ => apply release_ms in H
  | H : releaseBack _ _ _ _ = Some _ |- _ => apply releaseBack_ms in H
  | H : rekey _ _ _ _ = Some _ |- _ => apply rekey_ms in H
  | H : alloc _ _ _ = Some _ |- _ => apply alloc_ms in H
  | H : Some (_, _) = Some (_, _) |- _ => injection H as <- <-
  | H : Some _ = Some _ |- _ => injection H as <-
  end; mss2.
Lemma add_ms s p c s' o : addChained s p c = Some (s', o) -> msize s' = msize s.
Proof. unfold addChained. intros X. repeat one; fin. Qed.
Lemma pop_ms s p s' o : popChained s p = Some (s', o) -> msize s' = msize s.
Proof. unfold popChained. intros X. repeat one; fin. Qed.
Lemma transferLocked_ms s p p2 s' o : transferLocked s p p2 = Some (s', o) -> msize s' = msize s.
Proof. unfold transferLocked. intros X. repeat one; fin. Qed.
Lemma transfer_ms s p p2 s' o : transferChain s p p2 = Some (s', o) -> msize s' = msize s.
Proof.
  unfold transferChain. intros X. destruct (transferLocked s p p2) as [[s1 ok]|] eqn:E; [|discriminate]. apply transferLocked_ms in E.
  destruct ok; injection X as <- _; [|exact E]. unfold replaceIfAccessible. destruct (acc (it s1 p)); exact E.
Qed.
Lemma replaceInChain_ms s o n p f s' : replaceInChain s o n p f = Some s' -> msize s' = msize s.
Proof. unfold replaceInChain. intros X. repeat one; fin. Qed.
Lemma replace_ms s o n p s' u : replaceChained s o n p = Some (s', u) -> msize s' = msize s.
Proof.
  unfold replaceChained. intros X. destruct (_ || _ || _ || _ || _ || _); [repeat one; fin|].
  destruct (incRef s o) as [s1|] eqn:E1; [|discriminate]. cbn in X. destruct (replaceInChain _ o n p false) as [s3|] eqn:E3; [|discriminate].
  apply replaceInChain_ms in E3. repeat one; fin.
Qed.
Lemma exec_ms s c s' o : exec s c = Some (s', o) -> msize s' = msize s.
Proof.
  destruct c; cbn [exec]; intros X.
  - unfold allocParent in X. repeat one; fin.
  - unfold allocChild in X. repeat one; fin.
  - fin.
  - fin.
  - repeat one; fin.
  - repeat one; fin.
  - exact (add_ms _ _ _ _ _ X).
  - exact (pop_ms _ _ _ _ X).
  - exact (transfer_ms _ _ _ _ _ X).
  - exact (replace_ms _ _ _ _ _ _ X).
  - repeat one; fin.
  - unfold evict in X. cbv zeta in X. repeat one; fin.
  - unfold evictSlab in X. cbv zeta in X. repeat one; fin.
  - unfold moveChained, allocChild in X. cbv zeta in X. destruct (negb _); [discriminate|]. destruct (negb _); [discriminate|]. destruct (negb _); [fin|].
    destruct (alloc s n _) as [s1|] eqn:E1; [|discriminate]. cbn in X. destruct (replaceInChain _ o0 n _ true) as [s3|] eqn:E3; [|discriminate].
    apply replaceInChain_ms in E3. repeat one; fin.
  - unfold moveRegular, allocParent in X. cbv zeta in X. destruct (negb _); [discriminate|]. destruct (negb _); [fin|].
    destruct (alloc s p2 _) as [s1|] eqn:E1; [|discriminate]. apply alloc_ms in E1.
    match goal with H : (let* _ := ?e in _) = _ |- _ => destruct e as [[s3 ok]|] eqn:E3; [|discriminate] end.
    assert (M3 : msize s3 = msize s).
    { destruct (haschain _); [apply transferLocked_ms in E3; fin|fin]. }
    cbn in X. destruct (negb ok); [discriminate|]. set (s4 := if raced then setAcc s3 p false else s3) in *.
    assert (M4 : msize s4 = msize s) by (unfold s4; destruct raced; exact M3). clearbody s4. repeat one; fin.
Qed.

Lemma execs_ok m cs : forall s q, R s q -> msize s = m -> legals m q cs ->
  exists s', execs s cs = Some (s', snd (spec_execs q cs)) /\ R s' (fst (spec_execs q cs)) /\ msize s' = m.
Proof.
  induction cs as [|c cs IH]; intros s q HR M Lg; [exists s; auto|]. destruct Lg as (L1 & L2). rewrite <- M in L1.
  destruct (exec_ok s q c HR L1) as (s1 & E & HR1). pose proof (exec_ms _ _ _ _ E) as M1. cbn [execs spec_execs]. rewrite E.
  destruct (spec_exec q c) as [q1 o] eqn:Ec. cbn [fst snd] in *. destruct (IH s1 q1 HR1 (eq_trans M1 M) L2) as (s2 & -> & HR2 & M2).
  destruct (spec_execs q1 cs) as [q2 os]. exists s2. auto.
Qed.
Lemma init_R m : R (init m) init_w. Proof. split; [reflexivity|]. split; [intros n X; now cbn in X|]. intros n. cbn. auto. Qed.
Lemma reached_R m cs s outs : reached m cs s outs ->
  R s (fst (spec_execs init_w cs)) /\ msize s = m /\ outs = snd (spec_execs init_w cs).
Proof.
  intros (Lg & E). destruct (execs_ok m cs _ _ (init_R m) eq_refl Lg) as (s' & E' & HR & M). rewrite E in E'. injection E' as <- <-. auto.
Qed.
Lemma refines m cs : legals m init_w cs ->
  exists s, execs (init m) cs = Some (s, snd (spec_execs init_w cs)) /\ shows s (fst (spec_execs init_w cs)).
Proof.
  intros Lg. destruct (execs_ok m cs _ _ (init_R m) eq_refl Lg) as (s' & E' & HR & M). exists s'. split; [exact E'|]. apply R_shows; auto.
Qed.

(** * Allocation and release alternate *)
Definition alive (st : status) : bool := match st with Free => false | _ => true end.
Definition Life (q : world) : Prop := forall n, lifelog n (evs q) = Some (alive (who q n)).
Definition feels (n : node) (es : list event) (b : option bool) : option bool := fold_left (fun b e => feel n e b) es b.
Lemma lifelog_told n es l : lifelog n (rev es ++ l) = feels n es (lifelog n l).
Proof. unfold lifelog, feels. rewrite fold_right_app. apply (fold_left_rev_right (feel n) es). Qed.
Lemma feels_app n a b x : feels n (a ++ b) x = feels n b (feels n a x). Proof. apply fold_left_app. Qed.
Lemma feel_freed r n x b : feel n (freed r x) b = feel n (EFree x) b.
Proof. unfold freed. destruct r as [y|]; [|reflexivity]. destruct (x =? y); reflexivity. Qed.
Lemma feels_freed r n k : NoDup k -> forall b, (In n k -> b = true) -> feels n (map (freed r) k) (Some b) = Some (if memb n k then false else b).
Proof.
  induction k as [|x k IH]; intros ND b Hb; [reflexivity|]. inversion ND as [|? ? Nx ND']; subst. cbn [map feels fold_left memb existsb].
  rewrite feel_freed. cbn [feel]. rewrite (Nat.eqb_sym n x). destruct (Nat.eqb_spec x n) as [->|D].
  - rewrite (Hb (or_introl eq_refl)). cbn [orb]. unfold feels in IH. rewrite (IH ND' false); [|intros X; contradiction]. now destruct (memb n k).
  - cbn [orb]. apply (IH ND' b). intros X. apply Hb. now right.
Qed.

Lemma life_same q q' : Life q -> evs q' = evs q -> (forall n, alive (who q' n) = alive (who q n)) -> Life q'.
Proof. intros L E A n. rewrite E, A. apply L. Qed.
Lemma life_gone s q p k h v nas r : R s q -> Life q -> who q p = Parent k h v -> Life (gone q p k nas r).
Proof.
  intros HR L E n. destruct (parent_facts _ _ _ _ _ _ HR E) as (_ & _ & _ & ND & _ & _ & K & Np & _).
  assert (Al : In n (p :: k) -> alive (who q n) = true) by (intros [<-|X]; [now rewrite E|now rewrite (K n X)]).
  unfold gone. rewrite who_told. cbn [evs told sets]. rewrite lifelog_told, L, feels_app.
  assert (C : feels n (if nas then [] else [ECb p k]) (Some (alive (who q n))) = Some (alive (who q n))).
  { destruct nas; [reflexivity|]. cbn [feels fold_left feel]. destruct (memb n (p :: k)) eqn:M; [|reflexivity].
    rewrite Al by (now apply memb_in). reflexivity. }
  rewrite C. change (map (freed r) k ++ [freed r p]) with (map (freed r) k ++ map (freed r) [p]). rewrite <- map_app, feels_freed.
  - cbn [who told sets]. f_equal. destruct (dec_in (p :: k) n) as [X|X].
    + rewrite (proj2 (memb_in n (p :: k))) by exact X. assert (Y : In n (k ++ [p])) by (apply in_or_app; destruct X; [right; now left|auto]).
      apply memb_in in Y. now rewrite Y.
    + rewrite (proj2 (memb_false n (p :: k))) by exact X. assert (Y : ~ In n (k ++ [p])) by (intros Y; apply X; apply in_app_or in Y; destruct Y as [|[|[]]]; [now right|now left]).
      apply memb_false in Y. now rewrite Y.
  - apply NoDup_Add with (a := p) (l := k); [|auto]. clear. induction k; cbn; [constructor|]. now constructor.
  - intros Y. apply Al. apply in_app_or in Y. destruct Y as [|[|[]]]; [now right|now left].
Qed.
Lemma life_drop s q n nas : R s q -> Life q -> Life (drop q n nas).
Proof.
  intros HR L. unfold drop. destruct (who q n) as [|k h v|p h|p] eqn:E; auto.
  - destruct h as [|[|h]]; auto.
    + destruct v; [|exact (life_gone _ _ _ _ _ _ _ _ HR L E)]. apply (life_same _ _ L); [reflexivity|]. intros x. rewrite who_set.
      destruct (Nat.eqb_spec x n) as [->|]; [now rewrite E|reflexivity].
    + apply (life_same _ _ L); [reflexivity|]. intros x. rewrite who_set. destruct (Nat.eqb_spec x n) as [->|]; [now rewrite E|reflexivity].
  - destruct h as [|[|h]]; auto.
    + intros x. rewrite who_told, who_set. cbn [evs told set]. rewrite lifelog_told, L. cbn [feels fold_left feel].
      rewrite (Nat.eqb_sym x n). destruct (Nat.eqb_spec n x) as [<-|]; [now rewrite E|reflexivity].
    + apply (life_same _ _ L); [reflexivity|]. intros x. rewrite who_set. destruct (Nat.eqb_spec x n) as [->|]; [now rewrite E|reflexivity].
Qed.
Ltac same L := apply (life_same _ _ L); [reflexivity|]; intros x; cbn [fst]; rewrite ?who_told, ?who_set.
Ltac case1 := match goal with |- context [?x =? ?y] => destruct (Nat.eqb_spec x y) as [->|] end.
Ltac fate := repeat match goal with E : who ?q ?x = _ |- context [who ?q ?x] => rewrite E end; cbn [alive]; auto.
Lemma life_step s q c : R s q -> legal (msize s) q c -> Life q -> Life (fst (spec_exec q c)).
Proof.
  intros HR Lg L. destruct c; cbn [spec_exec legal] in *.
  - destruct Lg as (E & _). intros x. cbn [fst]. rewrite who_told, who_set. cbn [evs told set]. rewrite lifelog_told, L. cbn [feels fold_left feel].
    rewrite (Nat.eqb_sym x n). destruct (Nat.eqb_spec n x) as [<-|]; [now rewrite E|reflexivity].
  - destruct Lg as (E & _). intros x. cbn [fst]. rewrite who_told, who_set. cbn [evs told set]. rewrite lifelog_told, L. cbn [feels fold_left feel].
    rewrite (Nat.eqb_sym x n). destruct (Nat.eqb_spec n x) as [<-|]; [now rewrite E|reflexivity].
  - destruct Lg as (k & h & v & E). rewrite E. same L. case1; fate.
  - destruct Lg as (k & h & v & E). rewrite E. same L. case1; fate.
  - destruct (who q n) eqn:E; cbn [fst]; auto; same L; case1; fate.
  - exact (life_drop _ _ _ _ HR L).
  - destruct Lg as (Ec & k & h & v & E). rewrite E. same L. repeat case1; fate.
  - destruct Lg as (k & h & v & E). rewrite E. destruct k as [|c k]; [exact L|]. destruct (parent_facts _ _ _ _ _ _ HR E) as (_ & _ & _ & _ & _ & _ & K & _).
    specialize (K c (or_introl eq_refl)). same L. repeat case1; fate.
  - destruct Lg as (D & (c & k & h & v & E) & k2 & h2 & E2). rewrite E, E2. destruct k2; [|exact L]. same L.
    destruct (parent_facts _ _ _ _ _ _ HR E) as (_ & _ & _ & _ & _ & _ & K & _).
    destruct (dec_in (c :: k) x) as [X|X]; [rewrite who_sets_in, (K x X) by exact X; reflexivity|rewrite who_sets_out, !who_set by exact X].
    repeat case1; fate.
  - destruct Lg as (Eo & (k & h & v & E) & En). rewrite E. destruct (who q o) eqn:Eo'; try exact (life_drop _ _ _ _ HR L).
    destruct (who q n) eqn:En'; try exact (life_drop _ _ _ _ HR L). destruct (_ && _); [|exact (life_drop _ _ _ _ HR L)].
    same L. repeat case1; fate.
  - exact L.
  - destruct (who q (owner q r)) as [|k h v|p h|p] eqn:E; auto. destruct h; auto. destruct v; auto. exact (life_gone _ _ _ _ _ _ _ _ HR L E).
  - destruct (who q (owner q r)) as [|k h v|p h|p] eqn:E; auto. destruct h; auto. destruct v; auto. exact (life_gone _ _ _ _ _ _ _ _ HR L E).
  - destruct Lg as ((p & Eo) & En & _). destruct (who q (owner q o)) as [|k h v|p' h|p'] eqn:E; auto. destruct h; auto. destruct v; auto.
    cbn [fst]. intros x. rewrite who_told, !who_set. cbn [evs told set]. rewrite lifelog_told, L. cbn [feels fold_left feel].
    assert (Dno : n <> o) by congruence. assert (Dpn : n <> owner q o) by congruence.
    rewrite (Nat.eqb_sym x n), (Nat.eqb_sym x o). destruct (Nat.eqb_spec n x) as [<-|D1].
    + rewrite En. cbn [alive]. rewrite (proj2 (Nat.eqb_neq o n)) by auto. reflexivity.
    + destruct (Nat.eqb_spec o x) as [<-|D2]; [now rewrite Eo|]. destruct (Nat.eqb_spec x (owner q o)) as [->|]; [now rewrite E|reflexivity].
  - destruct Lg as ((k0 & h0 & Ep) & E2 & _). rewrite Ep. destruct h0 as [|h0]; [|exact L].
    destruct (parent_facts _ _ _ _ _ _ HR Ep) as (_ & _ & _ & ND & _ & _ & K & Np & _).
    assert (D : p <> p2) by congruence. assert (N2 : ~ In p2 k0) by (intros X; specialize (K p2 X); congruence).
    assert (Al : forall x, In x k0 -> alive (who q x) = true) by (intros x X; now rewrite (K x X)).
    destruct raced.
    + intros x. cbn [fst]. rewrite who_told. cbn [evs told sets]. rewrite lifelog_told, L.
      change (map EFree k0) with (map (freed None) k0).
      change (EAlloc p2 :: map (freed None) k0 ++ [EFree p2; ECb p []; EFree p]) with ([EAlloc p2] ++ map (freed None) k0 ++ [EFree p2; ECb p []; EFree p]).
      rewrite !feels_app.
      assert (A1 : feels x [EAlloc p2] (Some (alive (who q x))) = Some (if x =? p2 then true else alive (who q x))).
      { cbn [feels fold_left feel]. rewrite (Nat.eqb_sym x p2). destruct (Nat.eqb_spec p2 x) as [<-|]; [now rewrite E2|reflexivity]. }
      rewrite A1, feels_freed; [|exact ND|intros X; rewrite (Al x X); now destruct (x =? p2)].
      cbn [feels fold_left feel memb existsb orb]. rewrite (Nat.eqb_sym x p2), (Nat.eqb_sym x p).
      destruct (Nat.eqb_spec p2 x) as [<-|D2].
      * rewrite (proj2 (memb_false _ _) N2). rewrite (proj2 (Nat.eqb_neq p p2)) by exact D. cbn [who told sets orb andb negb].
        destruct (memb p2 (p :: k0)); [reflexivity|]. now rewrite E2.
      * destruct (Nat.eqb_spec p x) as [<-|D3].
        -- rewrite (proj2 (memb_false _ _) Np). rewrite Ep. cbn [alive orb andb negb who told sets memb existsb]. rewrite Nat.eqb_refl. reflexivity.
        -- cbn [who told sets orb andb negb memb existsb]. rewrite (proj2 (Nat.eqb_neq x p)) by auto. cbn [orb].
           unfold memb. destruct (existsb (Nat.eqb x) k0); reflexivity.
    + intros x. cbn [fst]. rewrite who_told. cbn [evs told sets set]. rewrite lifelog_told, L. cbn [feels fold_left feel].
      destruct (dec_in k0 x) as [X|X].
      * rewrite (Al x X). rewrite (proj2 (Nat.eqb_neq p2 x)) by (intros ->; contradiction). rewrite (proj2 (Nat.eqb_neq p x)) by (intros ->; contradiction).
        rewrite who_sets_in by exact X. reflexivity.
      * rewrite who_sets_out, !who_set by exact X. rewrite (Nat.eqb_sym x p2), (Nat.eqb_sym x p). destruct (Nat.eqb_spec p2 x) as [<-|D2].
        -- rewrite E2. cbn [alive]. rewrite (proj2 (Nat.eqb_neq p p2)) by exact D. reflexivity.
        -- destruct (Nat.eqb_spec p x) as [<-|D3]; [now rewrite Ep|reflexivity].
Qed.
Lemma life_execs m cs : forall s q, R s q -> msize s = m -> legals m q cs -> Life q -> Life (fst (spec_execs q cs)).
Proof.
  induction cs as [|c cs IH]; intros s q HR M Lg L; [exact L|]. destruct Lg as (L1 & L2). rewrite <- M in L1.
  destruct (exec_ok s q c HR L1) as (s1 & E & HR1). pose proof (exec_ms _ _ _ _ E) as M1. pose proof (life_step _ _ _ HR L1 L) as L'. cbn [spec_execs].
  destruct (spec_exec q c) as [q1 o] eqn:Ec. cbn [fst snd] in *. specialize (IH s1 q1 HR1 (eq_trans M1 M) L2 L').
  destruct (spec_execs q1 cs) as [q2 os]. exact IH.
Qed.
Lemma reached_life m cs s outs : reached m cs s outs -> forall n, lifelog n (log s) = Some (live s n).
Proof.
  intros Hr n. destruct (reached_R _ _ _ _ Hr) as (HR & M & _). destruct Hr as (Lg & _).
  assert (L : Life (fst (spec_execs init_w cs))). { apply (life_execs m cs (init m) init_w (init_R m) eq_refl Lg). intros x. reflexivity. }
  pose proof HR as (G & _ & Hn). rewrite G, L. f_equal. specialize (Hn n). unfold Rn in Hn. destruct (who _ n); cbn; symmetry; tauto.
Qed.
