(** C36: a compact cache bucket is a bounded LRU map that never lies. *)
From Verif Require Import CCache_model CCache_spec CCacheF_proofs CCacheV2_proofs CCacheV4_proofs CCacheV5_proofs CCacheK_proofs.

(** Fixed-size entries: for every history of legal operations on a fresh bucket,
    no undefined behaviour, and the results and evictions are those of the LRU
    list of at most [cap] entries. *)
Theorem C36_fixed_is_lru : forall cap vsz os, 0 < cap -> Forall (fLegal vsz) os ->
  exists b, hist (fstep vsz) (finit cap vsz) os = Some (b, snd (shist (fspec cap) [] os)) /\ length b = cap.
Proof.
  intros cap vsz os Hc HL. destruct (fhist_ok cap vsz Hc os _ _ (finit_rep cap vsz) HL) as (b & E & R).
  exists b. split; [exact E|]. destruct R as [Eb Hl _ _ _]. rewrite Eb, app_length, repeat_length. lia.
Qed.

(** Variable-size entries: the same, whatever bytes the bucket held before, with
    the shared byte budget; the header and data sections never overlap. *)
Theorem C36_variable_is_lru : forall hsz maxv g os, length g = bds hsz maxv -> Forall (vLegal maxv) os ->
  exists b, hist (vstep hsz maxv) (vinit g) os = Some (b, snd (shist (vspec hsz maxv) [] os)) /\
    length (v_data b) = bds hsz maxv /\ length (v_hdrs b) * hsz + v_total b <= bds hsz maxv /\
    length (v_hdrs b) <= 255.
Proof.
  intros hsz maxv g os Hg HL. destruct (vhist_ok hsz maxv os _ _ (vinit_rep hsz maxv g Hg) HL) as (b & E & R).
  exists b. split; [exact E|]. destruct R as (gap & bs & [RD RL RT RH RP RY RN Rn RR]).
  rewrite RD, app_length, CCacheV_proofs.enc_len, RH, RT. auto.
Qed.

(** Every get, delete, set and promotion answers exactly as the client must expect
    from the earlier sets, deletes and eviction reports, and each eviction report
    names an entry that was there, with its current value. *)
Theorem C36_fixed_honest : forall cap vsz os, 0 < cap -> Forall (fLegal vsz) os ->
  exists b outs, hist (fstep vsz) (finit cap vsz) os = Some (b, outs) /\ honest (fun _ => None) os outs.
Proof.
  intros cap vsz os Hc HL.
  destruct (honest_gen (fspec cap) (fstep vsz) (FRep cap vsz) (fLegal vsz) (fspec_ok cap)
    (fun b l R => fr_nd _ _ _ _ R) (fun b l o R L => fstep_ok cap vsz b l o Hc R L) os _ _ (finit_rep cap vsz) HL)
    as (b & outs & l' & E & H & _). exists b, outs. auto.
Qed.
Theorem C36_variable_honest : forall hsz maxv g os, length g = bds hsz maxv -> Forall (vLegal maxv) os ->
  exists b outs, hist (vstep hsz maxv) (vinit g) os = Some (b, outs) /\ honest (fun _ => None) os outs.
Proof.
  intros hsz maxv g os Hg HL.
  destruct (honest_gen (vspec hsz maxv) (vstep hsz maxv) (Rep hsz maxv) (vLegal maxv) (vspec_ok hsz maxv)
    (fun b l R => match R with ex_intro _ _ (ex_intro _ _ R') => rw_nd _ _ _ _ _ _ R' end)
    (fun b l o R L => vstep_ok hsz maxv b l o R L) os _ _ (vinit_rep hsz maxv g Hg) HL)
    as (b & outs & l' & E & H & _). exists b, outs. auto.
Qed.

(** A value the layout cannot hold is rejected without any effect when the key is
    not cached ... *)
Theorem C36_oversize_rejected : forall hsz maxv g os b outs k v,
  length g = bds hsz maxv -> Forall (vLegal maxv) os ->
  hist (vstep hsz maxv) (vinit g) os = Some (b, outs) -> known k None os outs = None ->
  maxv < length v \/ 255 < length v ->
  vstep hsz maxv b (OSet k v) = Some (b, RError, []).
Proof.
  intros hsz maxv g os b outs k v Hg HL E HK HO.
  destruct (honest_gen (vspec hsz maxv) (vstep hsz maxv) (Rep hsz maxv) (vLegal maxv) (vspec_ok hsz maxv)
    (fun b l R => match R with ex_intro _ _ (ex_intro _ _ R') => rw_nd _ _ _ _ _ _ R' end)
    (fun b l o R L => vstep_ok hsz maxv b l o R L) os _ _ (vinit_rep hsz maxv g Hg) HL)
    as (b' & outs' & l' & E' & _ & R & K). rewrite E in E'. injection E' as <- <-.
  apply (oversize_absent hsz maxv b l' k v R); [|assumption]. apply lookup_in. now rewrite K.
Qed.

(** ... but when the key is cached with a shorter value, the set reports success,
    drops the entry, stores nothing and calls no eviction callback. *)
Theorem C36_oversize_update_loses_entry : forall hsz maxv g os b outs k v w,
  length g = bds hsz maxv -> Forall (vLegal maxv) os ->
  hist (vstep hsz maxv) (vinit g) os = Some (b, outs) -> known k None os outs = Some w ->
  length w < length v -> maxv < length v \/ 255 < length v ->
  exists b', vstep hsz maxv b (OSet k v) = Some (b', RFound None, []) /\
    vstep hsz maxv b' (OGet k) = Some (b', RNotFound, []).
Proof.
  intros hsz maxv g os b outs k v w Hg HL E HK Hlt HO.
  destruct (honest_gen (vspec hsz maxv) (vstep hsz maxv) (Rep hsz maxv) (vLegal maxv) (vspec_ok hsz maxv)
    (fun b l R => match R with ex_intro _ _ (ex_intro _ _ R') => rw_nd _ _ _ _ _ _ R' end)
    (fun b l o R L => vstep_ok hsz maxv b l o R L) os _ _ (vinit_rep hsz maxv g Hg) HL)
    as (b' & outs' & l' & E' & _ & R & K). rewrite E in E'. injection E' as <- <-.
  specialize (K k). cbn [lookup] in K. rewrite HK in K. apply lookup_split in K as (a & c & -> & Hn).
  destruct (oversize_existing hsz maxv b a k w c v R Hlt HO) as (b2 & -> & R2).
  exists b2. split; [reflexivity|].
  destruct (vstep_ok hsz maxv b2 (a ++ c) (OGet k) R2 I) as (b3 & l3 & r & ev & E1 & E2 & R3).
  cbn [vspec] in E2. assert (EN : lookup (a ++ c) k = None).
  { apply lookup_in. destruct R as (gap & bs & R). pose proof (rw_nd _ _ _ _ _ _ R) as ND.
    apply NoDup_mid in ND. tauto. }
  rewrite EN in E2. injection E2 as <- <- <-. cbn [vstep] in E1 |- *.
  destruct (hfind (v_hdrs b2) k); [destruct (valueAt b2 n); discriminate|]. reflexivity.
Qed.

(** So the claim of the interface, "a set that reports FOUND or NOTFOUND stored the
    value", fails for over-long values, *)
Theorem C36_set_always_stores_refuted :
  exists hsz maxv g k v1 v2 b, length g = bds hsz maxv /\
    hist (vstep hsz maxv) (vinit g) [OSet k v1; OSet k v2; OGet k] =
      Some (b, [(RNotFound, []); (RFound None, []); (RNotFound, [])]).
Proof.
  exists 11, 300, (repeat 0%N 312), 1%N, [7%N], (repeat 5%N 256). eexists. split; [reflexivity|].
  vm_compute. reflexivity.
Qed.
(** and in the fixed layout for the empty key, which also hides all other entries. *)
Theorem C36_empty_key_refuted :
  exists b, hist (fstep 1) (finit 4 1) [OSet 1%N [7%N]; OSet 0%N [8%N]; OGet 1%N] =
    Some (b, [(RNotFound, []); (RNotFound, []); (RNotFound, [])]).
Proof. eexists. vm_compute. reflexivity. Qed.

(** Non-vacuity: histories with evictions, growing and shrinking updates, promotions. *)
Definition exV : list op :=
  [OSet 1 [1; 1; 1]; OSet 2 [2; 2]; OSet 3 [3; 3; 3; 3]; OGet 1; OPromote 1; OSet 2 [9]; OGet 3;
   OSet 4 [4; 4; 4; 4; 4; 4; 4; 4; 4; 4]; OGet 1; OGet 2; OGet 3; ODel 4; OGet 4]%N.
Example C36_exV_legal : Forall (vLegal 20) exV.
Proof. repeat constructor; cbn; lia. Qed.
Example C36_exV_run : exists b, hist (vstep 5 20) (vinit (repeat 77%N 26)) exV = Some (b,
  [(RNotFound, []); (RNotFound, []); (RNotFound, [(1, [1; 1; 1])]); (RNotFound, []); (RNotFound, []);
   (RFound None, []); (RFound (Some [3; 3; 3; 3]), []); (RNotFound, [(3, [3; 3; 3; 3])]);
   (RNotFound, []); (RFound (Some [9]), []); (RNotFound, []);
   (RFound (Some [4; 4; 4; 4; 4; 4; 4; 4; 4; 4]), []); (RNotFound, [])])%N.
Proof. eexists. vm_compute. reflexivity. Qed.
Definition exF : list op :=
  [OSet 1 [1]; OSet 2 [2]; OSet 3 [3]; OSet 1 [5]; OPromote 1; OSet 4 [4]; OGet 2; OGet 1; ODel 3; OSet 5 [5]]%N.
Example C36_exF_legal : Forall (fLegal 1) exF.
Proof. repeat constructor; cbn; try lia; reflexivity. Qed.
Example C36_exF_run : exists b, hist (fstep 1) (finit 3 1) exF = Some (b,
  [(RNotFound, []); (RNotFound, []); (RNotFound, []); (RFound None, []); (RFound None, []);
   (RNotFound, [(2, [2])]); (RNotFound, []); (RFound (Some [5]), []); (RFound (Some [3]), []); (RNotFound, [])])%N.
Proof. eexists. vm_compute. reflexivity. Qed.

Print Assumptions C36_fixed_is_lru.
Print Assumptions C36_variable_is_lru.
Print Assumptions C36_fixed_honest.
Print Assumptions C36_variable_honest.
Print Assumptions C36_oversize_rejected.
Print Assumptions C36_oversize_update_loses_entry.
Print Assumptions C36_set_always_stores_refuted.
Print Assumptions C36_empty_key_refuted.
