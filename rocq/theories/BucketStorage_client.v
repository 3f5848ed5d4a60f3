(** A client of the modelled storage: runs the operations of the specification
    against the code's entry points, locating allocations only through the
    code's own iteration (getFirst/getNext), as Bucket.cpp does. *)
From Verif Require Import Bytes BucketStorage_model BucketStorage_spec.

Definition run_op (s : storage) (o : sop) : option storage :=
  match o with
  | Push p =>
    let* (s1, a) := allocate s (length p) in
    match a with None => Some s1 | Some a => writeAlloc s1 a p end
  | RemoveAt i =>
    let* al := iterAll s in
    match nth_error al i with Some a => Some (removeOne s a) | None => Some s end
  | RemoveMarked m =>
    let* al := iterAll s in Some (removeAll s (marked m al))
  | RemoveUntilAt i =>
    let* al := iterAll s in Some (removeUntil s (nth_error al i))
  end.

Fixpoint run (s : storage) (ops : list sop) : option storage :=
  match ops with
  | [] => Some s
  | o :: r => let* s1 := run_op s o in run s1 r
  end.

Fixpoint read_list (s : storage) (al : list allocation) : option (list (list byte)) :=
  match al with
  | [] => Some []
  | a :: r => let* p := readAlloc s a in let* q := read_list s r in Some (p :: q)
  end.

(** Everything an observer sees: the contents by iteration. *)
Definition contents (s : storage) : option (list (list byte)) :=
  let* al := iterAll s in read_list s al.
