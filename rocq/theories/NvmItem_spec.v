(** C18: what must survive a trip through flash. *)
From Verif Require Import Bytes Item_model NvmItem_model.
Local Open Scope N_scope.

(** The user-visible content of a part: its size and its first [size] bytes. *)
Definition userBytes (p : part) : list byte := firstn (N.to_nat (p_size p)) (p_mem p).
Definition samePart (p q : part) : Prop := p_size p = p_size q /\ userBytes p = userBytes q.
Definition sameItem (a b : ramItem) : Prop :=
  i_pool a = i_pool b /\ i_creation a = i_creation b /\ i_expiry a = i_expiry b /\
  samePart (i_parent a) (i_parent b) /\ Forall2 samePart (i_chain a) (i_chain b).

(** An item as the allocator with these classes hands it out: fields fit their
    types, every part's memory has the usable size of its class. *)
Record itemOk (isz pw : nat) (classes : list N) (klen : nat) (it : ramItem) : Prop := {
  ok_pool : i_pool it < 256;
  ok_ct : i_creation it < 2 ^ 32;
  ok_ex : i_expiry it < 2 ^ 32;
  ok_parent : usableParent isz classes klen (p_size (i_parent it)) =
              Some (N.of_nat (length (p_mem (i_parent it)))) ;
  ok_chain : Forall (fun p => usableChained isz pw classes (p_size p) =
                              Some (N.of_nat (length (p_mem p)))) (i_chain it)
}.

(** Bytes that go to flash. *)
Definition storedBytes (trunc : bool) (it : ramItem) : nat :=
  fold_right (fun p n => (if trunc then N.to_nat (p_size p) else length (p_mem p)) + n)%nat 0%nat
    (i_parent it :: i_chain it).
