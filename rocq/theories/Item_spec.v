(** What a user of an item relies on (C13), in terms of keys, values and
    sizes only. *)
From Verif Require Import Bytes Item_model.
Local Open Scope N_scope.

(** The item as its user sees it. *)
Record uitem := { u_key : list byte; u_value : list byte; u_creation : N; u_expiry : N }.

(** What the user may do with it: write inside the value, set the expiry time
    (the flag says whether the item's state allows it). *)
Inductive uop := UWrite (pos : nat) (data : list byte) | USetExpiry (allowed : bool) (t : N).

Definition uop_legal (size : nat) (o : uop) : Prop :=
  match o with
  | UWrite pos data => (pos + length data <= size)%nat
  | USetExpiry _ t => t < 2 ^ 32
  end.

Definition ustep (u : uitem) (o : uop) : uitem :=
  match o with
  | UWrite pos data =>
      {| u_key := u_key u;
         u_value := firstn pos (u_value u) ++ data ++ skipn (pos + length data) (u_value u);
         u_creation := u_creation u; u_expiry := u_expiry u |}
  | USetExpiry true t =>
      {| u_key := u_key u; u_value := u_value u; u_creation := u_creation u; u_expiry := t |}
  | USetExpiry false _ => u
  end.
Definition urun (u : uitem) (os : list uop) : uitem := fold_left ustep os u.

(** The same operations performed by the code on the item's memory. *)
Definition istep (isz : nat) (m : list byte) (o : uop) : option (list byte) :=
  match o with
  | UWrite pos data => itemWriteValue isz m pos data
  | USetExpiry a t => let* r := itemUpdateExpiry isz m a t in Some (snd r)
  end.
Fixpoint irun (isz : nat) (m : list byte) (os : list uop) : option (list byte) :=
  match os with
  | [] => Some m
  | o :: r => let* m' := istep isz m o in irun isz m' r
  end.

(** Everything the item's accessors say about memory [m]. *)
Record shows (isz : nat) (m : list byte) (u : uitem) : Prop := {
  sh_key : itemKey isz m = Some (u_key u);
  sh_size : itemSize isz m = Some (N.of_nat (length (u_value u)));
  sh_value : itemValue isz m = Some (u_value u);
  sh_creation : itemCreation isz m = Some (u_creation u);
  sh_expiry : itemExpiry isz m = Some (u_expiry u)
}.

(** The bytes an item needs: header, key, value, and 4 bytes of key length
    when the key has more than 255 bytes. *)
Definition bytesNeeded (isz : nat) (keyLen : nat) (size : N) : N :=
  N.of_nat isz + N.of_nat keyLen + size + (if 255 <? N.of_nat keyLen then 4 else 0).

(** A request the cache must accept. *)
Definition acceptable (isz : nat) (classes : list N) (allowLarge : bool)
  (key : list byte) (size : N) : Prop :=
  key <> [] /\
  N.of_nat (length key) < 2 ^ 24 /\
  (allowLarge = false -> N.of_nat (length key) <= 255) /\
  size < 2 ^ 24 /\
  exists c, In c classes /\ bytesNeeded isz (length key) size <= c.

(** Chained items: parent, next, value. *)
Record chitem := { c_parent : N; c_next : N; c_value : list byte }.
Inductive chop := CWrite (pos : nat) (data : list byte) | CSetNext (p : N) | CSetParent (p : N).
Definition chop_legal (pw size : nat) (o : chop) : Prop :=
  match o with
  | CWrite pos data => (pos + length data <= size)%nat
  | CSetNext p | CSetParent p => p < 256 ^ N.of_nat pw
  end.
Definition chstep (u : chitem) (o : chop) : chitem :=
  match o with
  | CWrite pos data =>
      {| c_parent := c_parent u; c_next := c_next u;
         c_value := firstn pos (c_value u) ++ data ++ skipn (pos + length data) (c_value u) |}
  | CSetNext p => {| c_parent := c_parent u; c_next := p; c_value := c_value u |}
  | CSetParent p => {| c_parent := p; c_next := c_next u; c_value := c_value u |}
  end.
Definition chrun (u : chitem) (os : list chop) : chitem := fold_left chstep os u.
Definition cistep (isz pw : nat) (m : list byte) (o : chop) : option (list byte) :=
  match o with
  | CWrite pos data => chainedWriteValue isz pw m pos data
  | CSetNext p => chainedSetNext isz pw m p
  | CSetParent p =>
      let* r := chainedChangeKey isz pw m p in
      match r with Ok m' => Some m' | Threw => None end
  end.
Fixpoint cirun (isz pw : nat) (m : list byte) (os : list chop) : option (list byte) :=
  match os with
  | [] => Some m
  | o :: r => let* m' := cistep isz pw m o in cirun isz pw m' r
  end.
Record cshows (isz pw : nat) (m : list byte) (u : chitem) : Prop := {
  csh_parent : chainedParent isz pw m = Some (c_parent u);
  csh_next : chainedNext isz pw m = Some (c_next u);
  csh_size : chainedSize isz pw m = Some (N.of_nat (length (c_value u)));
  csh_value : chainedValue isz pw m = Some (c_value u)
}.
