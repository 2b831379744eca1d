(** frozen-collections-core/src/traits/len.rs: [Len] for strings, std collections and pointers; and the length hasher built on it.
    What a call means is decided by rustc: [self.len()] is the type's own function if it has one, else the function of the trait, and so
    the very function being defined. *)
From Verif Require Import Prelude ModelTables.

Inductive pointer := PBox | PRc | PArc.
Inductive container := Slice | Vec | VecDeque | HbHashMap | HbHashSet | StdHashSet | StdHashMap | BTreeMap | BTreeSet | BinaryHeap | LinkedList.

(** A value of one of the types. A [CStr] and a [CString] hold their bytes with the terminating NUL. *)
Inductive held (A : Type) :=
| InString (s : bytes)
| InStr (s : bytes)
| InRefStr (s : bytes)
| InCStr (raw : bytes)
| InCString (raw : bytes)
| InOsStr (s : bytes)
| InOsString (s : bytes)
| InContainer (c : container) (items : list A)
| Behind (p : pointer) (v : held A).
Arguments InString {A}.
Arguments InStr {A}.
Arguments InRefStr {A}.
Arguments InCStr {A}.
Arguments InCString {A}.
Arguments InOsStr {A}.
Arguments InOsString {A}.
Arguments InContainer {A}.
Arguments Behind {A}.

(** The forms of the bodies in the file. *)
Inductive len_body :=
| SelfLen      (* self.len() *)
| StrLen       (* str::len(self) *)
| PointeeLen   (* T::len(self), [T] the type pointed to: a type parameter, so this is [Len::len] *)
| BytesLen     (* self.to_bytes().len(), self.as_bytes().len() *)
| OsStrLen.    (* self.as_os_str().len() *)

(** len.rs L19-152: which type has which body. *)
Definition len_impl {A} (v : held A) : len_body :=
  match v with
  | InString _ => SelfLen          (* L19-23 *)
  | InStr _ => SelfLen             (* L25-29 *)
  | InRefStr _ => StrLen           (* L31-35 *)
  | InCStr _ => BytesLen           (* L37-41 *)
  | InContainer _ _ => SelfLen     (* L43-47, L67-103, L112-138 *)
  | Behind _ _ => PointeeLen       (* L49-65 *)
  | InCString _ => BytesLen        (* L105-110 *)
  | InOsStr _ => SelfLen           (* L140-145 *)
  | InOsString _ => OsStrLen       (* L147-152 *)
  end.

(** std: which of the types have a function [len] of their own, and what it returns. [CStr], [CString], [OsString], references and pointers have none. *)
Definition own_len {A} (v : held A) : option nat :=
  match v with
  | InString s | InStr s | InOsStr s => Some (length s)
  | InContainer _ items => Some (length items)
  | _ => None
  end.

(** std: [CStr::to_bytes], [CString::as_bytes]: the bytes without the terminating NUL. *)
Definition to_bytes (raw : bytes) : bytes := removelast raw.

(** [Len::len], for any choice of bodies; [None] if the calls have not come to an end within [fuel], or if the body does not type check. *)
Fixpoint len_call {A} (impl : held A -> len_body) (fuel : nat) (v : held A) : option nat :=
  match fuel with
  | O => None
  | S fuel =>
      match impl v, v with
      | SelfLen, _ => match own_len v with Some n => Some n | None => len_call impl fuel v end
      | StrLen, (InRefStr s | InStr s | InString s) => Some (length s)
      | PointeeLen, Behind _ w => len_call impl fuel w
      | BytesLen, (InCStr raw | InCString raw) => Some (length (to_bytes raw))
      | OsStrLen, InOsString s => Some (length s)
      | _, _ => None
      end
  end.

(** len.rs L14-16: [is_empty], by default. *)
Definition is_empty_call {A} (impl : held A -> len_body) (fuel : nat) (v : held A) : option bool :=
  match len_call impl fuel v with Some n => Some (Nat.eqb n 0) | None => None end.

(** hashers/length_hasher.rs L9-17. [T] is a type parameter, so [value.len()] is [Len::len]. *)
Definition length_hasher {A} (impl : held A -> len_body) (fuel : nat) (value : held A) : option N :=
  match len_call impl fuel value with Some n => Some (N.of_nat n) | None => None end.
