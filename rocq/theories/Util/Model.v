(** Model of streams/sak/util.go. *)
From Coq Require Import ZArith List Bool.
From stdpp Require Import gmap.
Import ListNotations.
Open Scope Z_scope.

(** a signed integer type of [w] bits: two's complement wrap-around of a mathematical result *)
Definition wrap (w z : Z) : Z := (z + 2 ^ (w - 1)) mod 2 ^ w - 2 ^ (w - 1).

(** util.go:50-55 Abs at a signed integer type of [w] bits (float types are not modelled: -a is exact) *)
Definition Abs (w a : Z) : Z := if a <? 0 then wrap w (- a) else a.

(** util.go:57-101; [lt] is the operator < of the type, [zero] its zero value *)
Section Extremes.
  Context {T : Type} (lt : T -> T -> bool) (zero : T).

  (** util.go:58-63 *)
  Definition Min (a b : T) : T := if lt a b then a else b.
  (** util.go:81-86; a > b is b < a *)
  Definition Max (a b : T) : T := if lt b a then a else b.

  (** util.go:66-78; the loop over i as a fold over the remaining values *)
  Definition MinN (vals : list T) : T :=
    match vals with
    | [] => zero
    | v0 :: rest => fold_left (fun m v => if lt v m then v else m) rest v0
    end.
  (** util.go:89-101 *)
  Definition MaxN (vals : list T) : T :=
    match vals with
    | [] => zero
    | v0 :: rest => fold_left (fun m v => if lt m v then v else m) rest v0
    end.
End Extremes.

(** Memory cells of type T; a pointer is nil or an address. [alloc] is new(T). *)
Definition memory (T : Type) := list T.
Definition pointer := option nat.
Definition alloc {T} (m : memory T) (v : T) : memory T * pointer := ((m ++ [v])%list, Some (length m)).
Definition load {T} (m : memory T) (p : pointer) : option T :=
  match p with None => None | Some a => nth_error m a end.
Definition store {T} (m : memory T) (p : pointer) (v : T) : memory T :=
  match p with None => m | Some a => <[a := v]> m end.

(** util.go:111-119 *)
Fixpoint ToPtrSlice {T} (m : memory T) (structs : list T) : memory T * list pointer :=
  match structs with
  | [] => (m, [])
  | v :: rest =>
      let '(m1, p) := alloc m v in
      let '(m2, ps) := ToPtrSlice m1 rest in (m2, p :: ps)
  end.

(** util.go:124-130; None = nil dereference *)
Fixpoint ToStructSlice {T} (m : memory T) (ptrs : list pointer) : option (list T) :=
  match ptrs with
  | [] => Some []
  | p :: rest =>
      match load m p, ToStructSlice m rest with
      | Some v, Some vs => Some (v :: vs)
      | _, _ => None
      end
  end.

(** Go maps: a finite map and, for each range loop, an unspecified iteration order [order], any
    permutation of the map's bindings. *)
Section Maps.
  Context {K T : Type} `{Countable K}.

  Definition iteration_of (m : gmap K T) (order : list (K * T)) : Prop := order ≡ₚ map_to_list m.

  (** util.go:135-142 *)
  Definition MapCopy (order : list (K * T)) : gmap K T :=
    fold_left (fun c kv => <[fst kv := snd kv]> c) order ∅.
  (** util.go:147-153 *)
  Definition MapValuesToSlice (order : list (K * T)) : list T :=
    fold_left (fun slice kv => slice ++ [snd kv]) order [].
  (** util.go:158-164 *)
  Definition MapKeysToSlice (order : list (K * T)) : list K :=
    fold_left (fun slice kv => slice ++ [fst kv]) order [].
End Maps.

(** util.go:179-184; None = panic *)
Definition Must {T E} (item : T) (err : option E) : option T :=
  match err with Some _ => None | None => Some item end.
