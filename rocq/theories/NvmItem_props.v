(** C18: an item with chained allocations survives the trip through flash. *)
From Verif Require Import Bytes Item_model Item_spec Item_proofs NvmItem_model NvmItem_spec
  NvmItem_proofs NvmItem_proofs2.
Local Open Scope N_scope.

(** Same allocation classes when written and when read: the read item shows the
    same pool, times, sizes, bytes and chain order; the number of bytes written
    to flash is the encoded size; and without truncation every byte of memory is
    restored, also behind the requested size.  No access leaves a buffer. *)
Theorem C18_roundtrip :
  forall isz pw classes klen trunc (gm : nat -> list byte) (g : N -> list byte) it,
  (0 < isz)%nat -> Forall (fun c => c < 2 ^ 32) classes -> itemOk isz pw classes klen it ->
  (forall n, length (gm n) = n) -> (forall u, N.of_nat (length (g u)) = u) ->
  N.of_nat (length (i_chain it)) < 2 ^ 31 ->
  N.of_nat (storedBytes trunc it) < 2 ^ 32 ->
  exists m it', makeNvmItem trunc gm it = Some (Ok m) /\ nvmTotalSize m = Some (length m) /\
    createItem isz pw classes klen g m = Some (Ok it') /\ sameItem it' it /\
    (trunc = false -> it' = it).
Proof.
  intros isz pw classes klen trunc gm g it Hi HC HOk Hgm Hg Hcl HS.
  pose proof (itemOk_parts _ _ _ _ _ Hi HC HOk) as HP.
  inversion HP as [|? ? [Hp1 Hp2] HPc]; subst.
  destruct (roundtrip isz pw classes classes klen trunc gm g it) as (m & it' & A & B & C & D & E);
    try assumption.
  - eexists. split; [exact (ok_parent _ _ _ _ _ HOk)|].
    rewrite makeBlob_length by assumption. destruct trunc; lia.
  - pose proof (ok_chain _ _ _ _ _ HOk) as HCh. clear -HCh HPc.
    induction HCh as [|p l HU _ IH]; [constructor|]. inversion HPc as [|? ? [Hq _] HP']; subst.
    constructor; [|auto]. eexists. split; [exact HU|].
    rewrite makeBlob_length by assumption. destruct trunc; lia.
  - exists m, it'. repeat split; auto; try apply D.
Qed.
Print Assumptions C18_roundtrip.

(** With truncation the encoding does not depend on the allocation classes: any
    other set of classes that can hold the requested sizes restores the item. *)
Theorem C18_roundtrip_new_classes :
  forall isz pw classes classes' klen (gm : nat -> list byte) (g : N -> list byte) it,
  (0 < isz)%nat -> Forall (fun c => c < 2 ^ 32) classes -> Forall (fun c => c < 2 ^ 32) classes' ->
  itemOk isz pw classes klen it ->
  (forall n, length (gm n) = n) -> (forall u, N.of_nat (length (g u)) = u) ->
  N.of_nat (length (i_chain it)) < 2 ^ 31 ->
  N.of_nat (storedBytes true it) < 2 ^ 32 ->
  usableParent isz classes' klen (p_size (i_parent it)) <> None ->
  Forall (fun p => usableChained isz pw classes' (p_size p) <> None) (i_chain it) ->
  exists m it', makeNvmItem true gm it = Some (Ok m) /\
    createItem isz pw classes' klen g m = Some (Ok it') /\ sameItem it' it.
Proof.
  intros isz pw classes classes' klen gm g it Hi HC HC' HOk Hgm Hg Hcl HS HUp HUc.
  pose proof (itemOk_parts _ _ _ _ _ Hi HC HOk) as HP.
  inversion HP as [|? ? [Hp1 Hp2] HPc]; subst.
  destruct (roundtrip isz pw classes classes' klen true gm g it) as (m & it' & A & B & C & D & E);
    try assumption.
  - destruct (usableParent isz classes' klen (p_size (i_parent it))) as [u|] eqn:EU; [|congruence].
    exists u. split; [reflexivity|]. rewrite makeBlob_length by assumption.
    apply usableParent_ge in EU; [|assumption|assumption]. lia.
  - clear -HUc HPc Hi HC'.
    induction HUc as [|p l HU _ IH]; [constructor|]. inversion HPc as [|? ? [Hq _] HP']; subst.
    constructor; [|auto].
    destruct (usableChained isz pw classes' (p_size p)) as [u|] eqn:EU; [|congruence].
    exists u. split; [reflexivity|]. rewrite makeBlob_length by assumption.
    apply usableChained_ge in EU; [|assumption|assumption]. lia.
  - eauto.
Qed.
Print Assumptions C18_roundtrip_new_classes.

(** Payloads of 4 GiB or more are rejected with an exception, never encoded. *)
Theorem C18_too_big :
  forall isz pw classes klen trunc (gm : nat -> list byte) it,
  (0 < isz)%nat -> Forall (fun c => c < 2 ^ 32) classes -> itemOk isz pw classes klen it ->
  (forall n, length (gm n) = n) -> 2 ^ 32 <= N.of_nat (storedBytes trunc it) ->
  makeNvmItem trunc gm it = Some Threw.
Proof. exact too_big. Qed.
Print Assumptions C18_too_big.

(** ** Non-vacuity *)
Definition ex_classes : list N := [64; 128; 256].
Definition ex_part u size x : part := {| p_size := size; p_mem := repeat x u |}.
Definition ex_item : ramItem :=
  {| i_pool := 3; i_creation := 1000; i_expiry := 2000;
     i_parent := ex_part 93 60 7; i_chain := [ex_part 24 10 8; ex_part 88 50 9] |}.
Definition ex_gm (n : nat) : list byte := repeat 170 n.
Definition ex_g (u : N) : list byte := repeat 85 (N.to_nat u).

Example C18_example_ok : itemOk 32 4 ex_classes 3 ex_item.
Proof. constructor; try (now vm_compute). repeat constructor. Qed.
Example C18_example_run :
  exists m, makeNvmItem false ex_gm ex_item = Some (Ok m) /\
    createItem 32 4 ex_classes 3 ex_g m = Some (Ok ex_item).
Proof. eexists. split; vm_compute; reflexivity. Qed.
Example C18_example_new_classes :
  exists m it', makeNvmItem true ex_gm ex_item = Some (Ok m) /\
    createItem 32 4 [100; 300] 3 ex_g m = Some (Ok it') /\ sameItem it' ex_item /\
    length (p_mem (i_parent it')) = 65%nat.
Proof.
  eexists. eexists. split; [vm_compute; reflexivity|]. split; [vm_compute; reflexivity|].
  split; [|vm_compute; reflexivity].
  repeat split. repeat constructor.
Qed.

(** Without truncation the claim "any classes that can hold the sizes" is false:
    the blob has the old class's usable size and the copy runs past the new,
    smaller allocation (only debug checks, NvmCache.h:1483, look at it). *)
Theorem C18_new_classes_without_truncation_refuted :
  exists isz pw classes classes' klen (gm : nat -> list byte) (g : N -> list byte) it m,
    itemOk isz pw classes klen it /\
    (forall n, length (gm n) = n) /\ (forall u, N.of_nat (length (g u)) = u) /\
    usableParent isz classes' klen (p_size (i_parent it)) <> None /\
    Forall (fun p => usableChained isz pw classes' (p_size p) <> None) (i_chain it) /\
    makeNvmItem false gm it = Some (Ok m) /\
    createItem isz pw classes' klen g m = None.
Proof.
  exists 32%nat, 4%nat, ex_classes, [100; 300], 3%nat, ex_gm, ex_g, ex_item. eexists.
  split; [exact C18_example_ok|].
  split; [intros n; apply repeat_length|].
  split; [intros u; unfold ex_g; rewrite repeat_length; apply N2Nat.id|].
  split; [vm_compute; discriminate|].
  split; [repeat constructor; vm_compute; discriminate|].
  split; vm_compute; reflexivity.
Qed.
Print Assumptions C18_new_classes_without_truncation_refuted.
