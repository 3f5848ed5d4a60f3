From Coq Require Import ZifyBool ZifyNat ZifyN.
From Verif Require Import Bytes BucketStorage_model BucketStorage_spec BucketStorage_proofs
  Bucket_model Bucket_spec.

Definition wf_entry (e : entry) : Prop := (khash (ekey e) < two64)%N.

Record RepB (s : storage) (es : list entry) : Prop := {
  repb_rep : Rep s (map entryBytes es);
  repb_wf : Forall wf_entry es
}.

Lemma entryBytes_length e : length (entryBytes e) = 16 + length (kbytes (ekey e)) + length (eval e).
Proof. unfold entryBytes. rewrite !app_length, !le_enc_length. lia. Qed.

Lemma used_cost es : used (map entryBytes es) = cost_all es.
Proof.
  induction es as [|e es IH]; [reflexivity|].
  cbn [map]. rewrite used_cons, entryBytes_length, IH.
  cbn [cost_all fold_right]. fold (cost_all es). unfold cost. lia.
Qed.

Lemma cost_app a b : cost_all (a ++ b) = cost_all a + cost_all b.
Proof. rewrite <- !used_cost, map_app, used_app. reflexivity. Qed.

Lemma hkey_eqb_spec a b : hkey_eqb a b = true <-> same_key a b.
Proof.
  unfold hkey_eqb, same_key. rewrite !andb_true_iff, N.eqb_eq, Nat.eqb_eq, bytes_eqb_spec.
  intuition congruence.
Qed.

Lemma hkey_eqb_eq a b : hkey_eqb a b = true <-> a = b.
Proof.
  rewrite hkey_eqb_spec. unfold same_key. destruct a, b; cbn. split.
  - intros [-> ->]. reflexivity.
  - intros E. inversion E. auto.
Qed.

Lemma nth_map_entry es i d :
  i < length es -> nth i (map entryBytes es) [] = entryBytes (nth i es d).
Proof.
  intros H. rewrite (nth_indep _ [] (entryBytes d)) by (now rewrite map_length).
  apply map_nth.
Qed.

Lemma readEntry_at s es i d :
  RepB s es -> i < length es ->
  readEntry s (alloc_at (map entryBytes es) i) = Some (nth i es d).
Proof.
  intros [HR Hwf] Hi.
  set (l := map entryBytes es) in *.
  assert (Hl : i < length l) by (unfold l; now rewrite map_length).
  pose proof (rep_cap _ _ HR) as Hcap. pose proof (rep_fit _ _ HR) as Hfit.
  assert (Hsz : 16 + length (kbytes (ekey (nth i es d))) + length (eval (nth i es d)) <= scap s).
  { rewrite (nth_split_at l i [] Hl) in Hfit. rewrite used_app, used_cons in Hfit.
    unfold l in Hfit at 2. rewrite (nth_map_entry es i d Hi), entryBytes_length in Hfit. lia. }
  assert (Hwe : wf_entry (nth i es d)).
  { rewrite Forall_forall in Hwf. apply Hwf. now apply nth_In. }
  destruct (rep_data _ _ HR) as [rest Hd].
  pose proof (data_split _ _ _ _ Hd Hl) as E.
  assert (En : nth i l [] = entryBytes (nth i es d)) by (apply nth_map_entry; assumption).
  rewrite En in E.
  set (e := nth i es d) in *. set (P := slots (firstn i l)) in *.
  set (Z0 := slots (skipn (S i) l) ++ rest) in *.
  set (H0 := le_enc 4 (N.of_nat (length (entryBytes e)))) in *.
  unfold entryBytes in E.
  assert (LP : length P = used (firstn i l)) by (unfold P; apply slots_length).
  assert (LH : length H0 = 4) by apply le_enc_length.
  unfold readEntry. cbn [alloc_at aoff].
  set (K := kbytes (ekey e)) in *. set (V := eval e) in *.
  set (EK := le_enc 4 (N.of_nat (length K))) in *.
  set (EV := le_enc 4 (N.of_nat (length V))) in *.
  set (EH := le_enc 8 (khash (ekey e))) in *.
  assert (LK : length EK = 4) by apply le_enc_length.
  assert (LV : length EV = 4) by apply le_enc_length.
  assert (LHH : length EH = 8) by apply le_enc_length.
  assert (E1 : sdata s = (P ++ H0) ++ EK ++ (EV ++ EH ++ K ++ V ++ Z0))
    by (rewrite E, <- !app_assoc; reflexivity).
  assert (E2 : sdata s = (P ++ H0 ++ EK) ++ EV ++ (EH ++ K ++ V ++ Z0))
    by (rewrite E, <- !app_assoc; reflexivity).
  assert (E3 : sdata s = (P ++ H0 ++ EK ++ EV) ++ EH ++ (K ++ V ++ Z0))
    by (rewrite E, <- !app_assoc; reflexivity).
  assert (E4 : sdata s = (P ++ H0 ++ EK ++ EV ++ EH) ++ K ++ (V ++ Z0))
    by (rewrite E, <- !app_assoc; reflexivity).
  assert (E5 : sdata s = (P ++ H0 ++ EK ++ EV ++ EH ++ K) ++ V ++ Z0)
    by (rewrite E, <- !app_assoc; reflexivity).
  assert (R1 : rd 4 (sdata s) (used (firstn i l) + 4) = Some (N.of_nat (length K))).
  { rewrite E1. apply rd_app_mid; [rewrite app_length; lia|]. change (256 ^ N.of_nat 4)%N with two32. lia. }
  assert (R2 : rd 4 (sdata s) (used (firstn i l) + 4 + 4) = Some (N.of_nat (length V))).
  { rewrite E2. apply rd_app_mid; [rewrite !app_length; lia|]. change (256 ^ N.of_nat 4)%N with two32. lia. }
  assert (R3 : rd 8 (sdata s) (used (firstn i l) + 4 + 8) = Some (khash (ekey e))).
  { rewrite E3. apply rd_app_mid; [rewrite !app_length; lia|]. change (256 ^ N.of_nat 8)%N with two64. exact Hwe. }
  rewrite R1, R2, R3. rewrite !Nat2N.id.
  assert (R4 : rd_bytes (sdata s) (used (firstn i l) + 4 + 16) (length K) = Some K).
  { rewrite E4. apply rd_bytes_app_mid; [rewrite !app_length; lia|reflexivity]. }
  assert (R5 : rd_bytes (sdata s) (used (firstn i l) + 4 + 16 + length K) (length V) = Some V).
  { rewrite E5. apply rd_bytes_app_mid; [rewrite !app_length; lia|reflexivity]. }
  rewrite R4, R5. unfold K, V. destruct e as [[k h] v]. reflexivity.
Qed.

(** iteration cursor at position i *)
Definition cur (es : list entry) (i : nat) : option allocation :=
  if i <? length es then Some (alloc_at (map entryBytes es) i) else None.

Lemma getFirst_cur s es : RepB s es -> getFirst s = Some (cur es 0).
Proof.
  intros [HR _]. rewrite (getFirst_spec _ _ HR). unfold cur. destruct es; reflexivity.
Qed.

Lemma getNext_cur s es i :
  RepB s es -> i < length es ->
  getNext s (alloc_at (map entryBytes es) i) = Some (cur es (S i)).
Proof.
  intros [HR _] Hi. rewrite (getNext_spec _ _ _ HR) by (now rewrite map_length).
  unfold cur. now rewrite map_length.
Qed.

Lemma cur_lt es i : i < length es -> cur es i = Some (alloc_at (map entryBytes es) i).
Proof. intros H. unfold cur. destruct (Nat.ltb_spec i (length es)); [reflexivity|lia]. Qed.
Lemma cur_ge es i : length es <= i -> cur es i = None.
Proof. intros H. unfold cur. destruct (Nat.ltb_spec i (length es)); [lia|reflexivity]. Qed.

Lemma fuel_enough s es : RepB s es -> length es < loop_fuel s.
Proof.
  intros [HR _]. unfold loop_fuel. pose proof (rep_len _ _ HR). pose proof (rep_fit _ _ HR).
  pose proof (used_ge_len (map entryBytes es)). rewrite map_length in *. lia.
Qed.

Definition dummy : entry := {| ekey := {| kbytes := []; khash := 0 |}; eval := [] |}.

Lemma entriesFrom_spec s es : RepB s es ->
  forall k i fuel, i + k = length es -> k <= fuel ->
  entriesFrom fuel s (cur es i) = Some (skipn i es).
Proof.
  intros HR. induction k as [|k IH]; intros i fuel Hi Hf.
  - rewrite cur_ge, skipn_all2 by lia. destruct fuel; reflexivity.
  - rewrite cur_lt by lia. destruct fuel as [|fuel]; [lia|]. cbn [entriesFrom].
    rewrite (readEntry_at s es i dummy HR) by lia.
    rewrite (getNext_cur s es i HR) by lia.
    rewrite IH by lia. rewrite (skipn_nth es i dummy) by lia. reflexivity.
Qed.

Lemma entries_spec s es : RepB s es -> entries s = Some es.
Proof.
  intros HR. unfold entries. rewrite (getFirst_cur s es HR).
  pose proof (fuel_enough s es HR).
  rewrite (entriesFrom_spec s es HR (length es) 0) by lia. reflexivity.
Qed.

Lemma findFrom_spec s es hk : RepB s es ->
  forall k i fuel, i + k = length es -> k <= fuel ->
  findFrom fuel s (cur es i) hk = Some (lookup_spec (skipn i es) hk).
Proof.
  intros HR. induction k as [|k IH]; intros i fuel Hi Hf.
  - rewrite cur_ge, skipn_all2 by lia. destruct fuel; reflexivity.
  - rewrite cur_lt by lia. destruct fuel as [|fuel]; [lia|]. cbn [findFrom].
    rewrite (readEntry_at s es i dummy HR) by lia.
    rewrite (skipn_nth es i dummy) by lia. cbn [lookup_spec].
    destruct (hkey_eqb hk (ekey (nth i es dummy))); [reflexivity|].
    rewrite (getNext_cur s es i HR) by lia. apply IH; lia.
Qed.

Lemma find_spec s es hk : RepB s es -> find s hk = Some (lookup_spec es hk).
Proof.
  intros HR. unfold find. rewrite (getFirst_cur s es HR).
  pose proof (fuel_enough s es HR).
  rewrite (findFrom_spec s es hk HR (length es) 0) by lia. reflexivity.
Qed.

Lemma RepB_removeOne s es i : RepB s es -> i < length es ->
  scap (removeOne s (alloc_at (map entryBytes es) i)) = scap s /\
  RepB (removeOne s (alloc_at (map entryBytes es) i)) (firstn i es ++ skipn (S i) es).
Proof.
  intros [HR Hwf] Hi.
  destruct (removeOne_spec s _ i HR) as [C R]; [now rewrite map_length|].
  split; [exact C|]. constructor.
  - rewrite map_app, <- firstn_map, <- skipn_map. exact R.
  - apply Forall_app. rewrite Forall_forall in Hwf. split; apply Forall_forall; intros x Hx; apply Hwf.
    + rewrite <- (firstn_skipn i es). apply in_or_app. now left.
    + rewrite <- (firstn_skipn (S i) es). apply in_or_app. now right.
Qed.

Lemma removeFrom_spec s es hk : RepB s es ->
  forall k i fuel, i + k = length es -> k <= fuel ->
  exists s',
  removeFrom fuel s (cur es i) hk
    = Some (s', length (snd (remove_spec (skipn i es) hk)),
            map (fun e => (e, Removed)) (snd (remove_spec (skipn i es) hk))) /\
  scap s' = scap s /\
  RepB s' (firstn i es ++ fst (remove_spec (skipn i es) hk)).
Proof.
  intros HR. induction k as [|k IH]; intros i fuel Hi Hf.
  - rewrite cur_ge, skipn_all2 by lia. exists s. cbn. rewrite app_nil_r, firstn_all2 by lia.
    destruct fuel; auto.
  - rewrite cur_lt by lia. destruct fuel as [|fuel]; [lia|]. cbn [removeFrom].
    rewrite (readEntry_at s es i dummy HR) by lia.
    rewrite (skipn_nth es i dummy) by lia. cbn [remove_spec].
    destruct (hkey_eqb hk (ekey (nth i es dummy))).
    + eexists. split; [reflexivity|]. cbn [fst]. apply RepB_removeOne; [assumption|lia].
    + rewrite (getNext_cur s es i HR) by lia.
      destruct (IH (S i) fuel) as (s' & E1 & E2 & E3); [lia|lia|].
      destruct (remove_spec (skipn (S i) es) hk) as [ra rb] eqn:ER. cbn [fst snd] in *.
      exists s'. split; [exact E1|]. split; [exact E2|].
      rewrite (firstn_S_nth es i dummy) in E3 by lia. rewrite <- app_assoc in E3. exact E3.
Qed.

Lemma remove_ok s es hk : RepB s es ->
  exists s',
  remove s hk = Some (s', length (snd (remove_spec es hk)),
                      map (fun e => (e, Removed)) (snd (remove_spec es hk))) /\
  scap s' = scap s /\ RepB s' (fst (remove_spec es hk)).
Proof.
  intros HR. unfold remove. rewrite (getFirst_cur s es HR).
  pose proof (fuel_enough s es HR).
  apply (removeFrom_spec s es hk HR (length es) 0 (loop_fuel s)); lia.
Qed.

(** expired removal *)
Lemma expiredFrom_spec s es ex : RepB s es ->
  forall k i fuel, i + k = length es -> k <= fuel ->
  expiredFrom fuel s (cur es i) ex
  = Some (marked (map (fun e => ex (eval e)) (skipn i es))
                 (map (alloc_at (map entryBytes es)) (seq i k)),
          map (fun e => (e, Recycled)) (filter (fun e => ex (eval e)) (skipn i es))).
Proof.
  intros HR. induction k as [|k IH]; intros i fuel Hi Hf.
  - rewrite cur_ge, skipn_all2 by lia. destruct fuel; reflexivity.
  - rewrite cur_lt by lia. destruct fuel as [|fuel]; [lia|]. cbn [expiredFrom].
    rewrite (readEntry_at s es i dummy HR) by lia.
    rewrite (getNext_cur s es i HR) by lia. rewrite IH by lia.
    rewrite (skipn_nth es i dummy) by lia. cbn [seq map marked filter fst snd].
    destruct (ex (eval (nth i es dummy))); reflexivity.
Qed.

Lemma marked_filter {A B} (f : A -> bool) (g : A -> B) (l : list A) :
  marked (map f l) (map g l) = map g (filter f l) /\
  unmarked (map f l) (map g l) = map g (filter (fun x => negb (f x)) l).
Proof.
  induction l as [|x l [IH1 IH2]]; [split; reflexivity|].
  cbn [map marked unmarked filter]. destruct (f x); cbn [negb map]; rewrite IH1, IH2; split; reflexivity.
Qed.

Lemma marked_length_filter {A B} (f : A -> bool) (l : list A) (l2 : list B) :
  length l = length l2 -> length (marked (map f l) l2) = length (filter f l).
Proof.
  revert l2; induction l as [|x l IH]; intros [|y l2] H; cbn in *; try reflexivity; try lia.
  destruct (f x); cbn; rewrite IH by lia; reflexivity.
Qed.

Lemma filter_Forall {A} (P : A -> Prop) f l : Forall P l -> Forall P (filter f l).
Proof. induction 1 as [|x l Hx Hl IH]; cbn; [constructor|]. destruct (f x); auto. Qed.

Definition opt_expired (c : option (list byte -> bool)) : list byte -> bool :=
  match c with Some f => f | None => fun _ => false end.

Lemma filter_none {A} (l : list A) : filter (fun _ => false) l = [].
Proof. induction l; [reflexivity|assumption]. Qed.
Lemma filter_all {A} (l : list A) : filter (fun _ => true) l = l.
Proof. induction l as [|x l IH]; [reflexivity|]. cbn. now rewrite IH. Qed.

Lemma removeExpired_ok s es c : RepB s es ->
  let live := filter (fun x => negb (opt_expired c (eval x))) es in
  let dead := filter (fun x => opt_expired c (eval x)) es in
  exists s', removeExpired s c = Some (s', length dead, map (fun e => (e, Recycled)) dead)
    /\ scap s' = scap s /\ RepB s' live.
Proof.
  intros HR live dead. unfold removeExpired. destruct c as [f|]; cbn [opt_expired] in *.
  - rewrite (getFirst_cur s es HR). pose proof (fuel_enough s es HR).
    rewrite (expiredFrom_spec s es f HR (length es) 0) by lia. cbn [skipn fst snd].
    eexists. split.
    + f_equal. f_equal. f_equal.
      apply marked_length_filter. now rewrite map_length, seq_length.
    + destruct HR as [HR Hwf].
      pose proof (removeAll_spec s _ (map (fun e => f (eval e)) es) HR) as [C R].
      rewrite map_length in C, R. split; [exact C|]. constructor.
      * destruct (marked_filter (fun e => f (eval e)) entryBytes es) as [_ E]. rewrite E in R. exact R.
      * now apply filter_Forall.
  - exists s. unfold live, dead. rewrite filter_none, filter_all. auto.
Qed.

(** eviction loop *)
Lemma cost_nth_split es i d : i < length es ->
  cost_all (firstn (S i) es) = cost_all (firstn i es) + cost (nth i es d).
Proof.
  intros H. rewrite (firstn_S_nth es i d H), cost_app. cbn. lia.
Qed.

Lemma cost_skipn es i d : i < length es ->
  cost_all (skipn i es) = cost (nth i es d) + cost_all (skipn (S i) es).
Proof. intros H. now rewrite (skipn_nth es i d H). Qed.

Lemma RepB_removeUntil s es i : RepB s es -> i < length es ->
  scap (removeUntil s (Some (alloc_at (map entryBytes es) i))) = scap s /\
  RepB (removeUntil s (Some (alloc_at (map entryBytes es) i))) (skipn (S i) es).
Proof.
  intros [HR Hwf] Hi.
  destruct (removeUntil_spec s _ i HR) as [C R]; [now rewrite map_length|].
  split; [exact C|]. constructor.
  - rewrite <- skipn_map. exact R.
  - rewrite Forall_forall in Hwf. apply Forall_forall; intros x Hx; apply Hwf.
    rewrite <- (firstn_skipn (S i) es). apply in_or_app. now right.
Qed.

Lemma evictFrom_spec s es required : RepB s es -> required <= scap s ->
  forall k i fuel, i + k = length es -> k <= fuel ->
  scap s < cost_all (skipn i es) + required ->
  exists s',
  evictFrom fuel s (cur es i) (scap s - cost_all (skipn i es)) required
   = Some (s', length (fst (make_room (scap s) required (skipn i es))),
           map (fun e => (e, Recycled)) (fst (make_room (scap s) required (skipn i es))))
  /\ scap s' = scap s
  /\ RepB s' (snd (make_room (scap s) required (skipn i es))).
Proof.
  intros HR Hreq. pose proof (rep_fit _ _ (repb_rep _ _ HR)) as Hfit.
  rewrite used_cost in Hfit.
  induction k as [|k IH]; intros i fuel Hi Hf Hno.
  - rewrite skipn_all2 in Hno by lia. cbn in Hno. lia.
  - rewrite cur_lt by lia. destruct fuel as [|fuel]; [lia|]. cbn [evictFrom].
    rewrite (readEntry_at s es i dummy HR) by lia.
    assert (Hsp : cost_all (firstn i es) + cost_all (skipn i es) = cost_all es)
      by (rewrite <- cost_app, firstn_skipn; reflexivity).
    pose proof (cost_skipn es i dummy ltac:(lia)) as Hc.
    pose proof (rep_cap _ _ (repb_rep _ _ HR)) as Hcap.
    assert (Hss : slotSize (asize (alloc_at (map entryBytes es) i)) = cost (nth i es dummy)).
    { cbn [alloc_at asize]. rewrite (nth_map_entry es i dummy) by lia.
      rewrite entryBytes_length. rewrite slotSize_small; [unfold cost; lia|].
      unfold cost in Hc. lia. }
    rewrite Hss.
    replace (scap s - cost_all (skipn i es) + cost (nth i es dummy))
      with (scap s - cost_all (skipn (S i) es)) by lia.
    rewrite (skipn_nth es i dummy) by lia. cbn [make_room].
    rewrite <- (skipn_nth es i dummy) by lia.
    destruct (Nat.leb_spec (cost_all (skipn i es) + required) (scap s)); [lia|].
    destruct (Nat.leb_spec required (scap s - cost_all (skipn (S i) es))) as [Hle|Hgt].
    + assert (Em : make_room (scap s) required (skipn (S i) es) = ([], skipn (S i) es)).
      { destruct (skipn (S i) es) as [|x r] eqn:Ex; cbn [make_room];
        destruct (Nat.leb_spec (cost_all (skipn (S i) es) + required) (scap s)) as [|Hbad];
        rewrite Ex in *; try lia;
        match goal with |- context[?a <=? ?b] => destruct (Nat.leb_spec a b); [reflexivity|lia] end. }
      rewrite Em. cbn [fst snd length map].
      eexists. split; [reflexivity|]. apply RepB_removeUntil; [assumption|lia].
    + rewrite (getNext_cur s es i HR) by lia.
      destruct (IH (S i) fuel) as (s' & E1 & E2 & E3); [lia|lia|lia|].
      rewrite E1.
      destruct (make_room (scap s) required (skipn (S i) es)) as [ev kp]. cbn [fst snd] in *.
      exists s'. auto.
Qed.

Lemma make_room_fits cap need l : need <= cap ->
  cost_all (snd (make_room cap need l)) + need <= cap.
Proof.
  intros Hn. induction l as [|e l IH]; cbn [make_room].
  - destruct (Nat.leb_spec (cost_all [] + need) cap); cbn; lia.
  - destruct (Nat.leb_spec (cost_all (e :: l) + need) cap); [cbn [snd]; lia|].
    destruct (make_room cap need l). exact IH.
Qed.

Lemma make_room_split cap need l : need <= cap ->
  l = fst (make_room cap need l) ++ snd (make_room cap need l).
Proof.
  intros Hn. induction l as [|e l IH]; cbn [make_room].
  - destruct (cost_all [] + need <=? cap); reflexivity.
  - destruct (cost_all (e :: l) + need <=? cap); [reflexivity|].
    destruct (make_room cap need l). cbn [fst snd app] in *. now rewrite <- IH.
Qed.

Lemma computeSize_eq e cap : cost e <= cap -> (N.of_nat cap < two32)%N ->
  computeSize (length (kbytes (ekey e))) (length (eval e)) = length (entryBytes e)
  /\ (N.of_nat (length (entryBytes e)) + 4 < two32)%N
  /\ slotSize (length (entryBytes e)) = cost e.
Proof.
  intros Hc Hcap. unfold cost in *. rewrite entryBytes_length.
  split; [|split].
  - unfold computeSize, wrap32. rewrite N.mod_small by lia. lia.
  - lia.
  - rewrite slotSize_small by lia. lia.
Qed.

Lemma makeSpace_ok s es e c : RepB s es -> cost e <= scap s ->
  let '(after, dead, ev) := insert_spec (scap s) (opt_expired c) es e in
  exists s' kept,
    makeSpace s (length (entryBytes e)) c
      = Some (s', length dead + length ev, length dead,
              map (fun e => (e, Recycled)) (dead ++ ev))
    /\ scap s' = scap s /\ RepB s' kept /\ after = kept ++ [e]
    /\ cost_all kept + cost e <= scap s.
Proof.
  intros HR Hc. pose proof (rep_cap _ _ (repb_rep _ _ HR)) as Hcap.
  pose proof (rep_fit _ _ (repb_rep _ _ HR)) as Hfit. rewrite used_cost in Hfit.
  pose proof (rep_end _ _ (repb_rep _ _ HR)) as Hend. rewrite used_cost in Hend.
  destruct (computeSize_eq e (scap s) Hc Hcap) as (_ & _ & Hss).
  unfold insert_spec, makeSpace. rewrite Hss. unfold remainingCapacity. rewrite Hend.
  destruct (Nat.leb_spec (cost_all es + cost e) (scap s)) as [Hf|Hf].
  - destruct (Nat.leb_spec (cost e) (scap s - cost_all es)); [|lia].
    exists s, es. cbn. auto.
  - destruct (Nat.leb_spec (cost e) (scap s - cost_all es)); [lia|].
    destruct (removeExpired_ok s es c HR) as (s1 & E1 & C1 & R1). rewrite E1. cbv beta iota zeta.
    set (live := filter (fun x => negb (opt_expired c (eval x))) es) in *.
    set (dead := filter (fun x => opt_expired c (eval x)) es) in *.
    pose proof (rep_fit _ _ (repb_rep _ _ R1)) as Hfit1. rewrite used_cost, C1 in Hfit1.
    pose proof (rep_end _ _ (repb_rep _ _ R1)) as Hend1. rewrite used_cost in Hend1.
    rewrite Hend1, C1.
    destruct (Nat.leb_spec (cost e) (scap s - cost_all live)) as [Hl|Hl].
    + destruct (Nat.ltb_spec 0 (length dead)) as [Hd|Hd]; cbn [andb].
      * assert (Em : make_room (scap s) (cost e) live = ([], live)).
        { destruct live as [|x r] eqn:Ex; cbn [make_room];
          match goal with |- context[?a <=? ?b] => destruct (Nat.leb_spec a b); [reflexivity|] end.
          - reflexivity. - lia. }
        rewrite Em. exists s1, live. rewrite Nat.add_0_r, app_nil_r.
        repeat split; try assumption; try apply R1. lia.
      * exfalso. assert (D0 : dead = []) by (apply length_zero_iff_nil; lia).
        assert (live = es).
        { unfold live, dead in *. clear -D0. induction es as [|x es IH]; [reflexivity|].
          cbn [filter] in *. destruct (opt_expired c (eval x)); [discriminate|].
          cbn [negb]. now rewrite IH. }
        rewrite H0 in Hl. lia.
    + rewrite andb_false_r. rewrite (getFirst_cur s1 live R1).
      pose proof (fuel_enough s1 live R1).
      destruct (evictFrom_spec s1 live (cost e) R1 ltac:(lia) (length live) 0 (loop_fuel s1))
        as (s2 & E2 & C2 & R2); [lia|lia|cbn [skipn]; lia|].
      cbn [skipn] in E2, R2. rewrite C1 in E2, R2. rewrite E2.
      pose proof (make_room_fits (scap s) (cost e) live Hc) as Hmf.
      destruct (make_room (scap s) (cost e) live) as [ev kept]. cbn [fst snd] in *.
      exists s2, kept. rewrite map_app. repeat split; try assumption; try apply R2; lia.
Qed.

Lemma insert_ok s es e c : RepB s es -> cost e <= scap s -> wf_entry e ->
  let '(after, dead, ev) := insert_spec (scap s) (opt_expired c) es e in
  exists s',
    insert s e c = Some (s', length dead + length ev, length dead,
                         map (fun e => (e, Recycled)) (dead ++ ev))
    /\ scap s' = scap s /\ RepB s' after.
Proof.
  intros HR Hc Hwf. pose proof (rep_cap _ _ (repb_rep _ _ HR)) as Hcap.
  pose proof (makeSpace_ok s es e c HR Hc) as H.
  destruct (computeSize_eq e (scap s) Hc Hcap) as (Hcs & Hsm & Hss).
  unfold insert. rewrite Hcs.
  destruct (insert_spec (scap s) (opt_expired c) es e) as [[after dead] ev].
  destruct H as (s1 & kept & E1 & C1 & R1 & -> & Hfit). rewrite E1. cbv beta iota zeta.
  destruct R1 as [R1 W1].
  destruct (allocate_ok s1 (map entryBytes kept) (entryBytes e) R1 Hsm) as (s2 & s3 & E2 & E3 & C3 & R3).
  { rewrite used_cost, C1, entryBytes_length. unfold cost in Hfit. lia. }
  rewrite E2. rewrite E3. exists s3. split; [reflexivity|]. split; [congruence|].
  constructor.
  - rewrite map_app. exact R3.
  - apply Forall_app. auto.
Qed.

Lemma initB mem : (N.of_nat (length mem) < two32)%N -> RepB (initStorage mem) [].
Proof. intros H. constructor; [now apply init_rep|constructor]. Qed.
