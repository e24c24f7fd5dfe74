(** Model of streams/stores/simple_store.go. *)
From Coq Require Import Strings.Byte ZArith List Bool.
From Verif.Base Require Import Bytes.
From Verif.Record Require Import Model.
From Verif.BTree Require Import Model StringOrder.
Import ListNotations.

Section Store.
  (** the item type, its Key method, and the codec: Encode appends the bytes given by [enc] or fails,
      Decode returns an item together with the information whether it returned an error *)
  Context {T : Type} (itemKey : T -> bytes) (enc : T -> option bytes) (dec : bytes -> T * bool).

  (** simple_store.go:27-30; probes for Get and Delete have no value *)
  Record keyedValue := mkKV { kv_key : bytes; kv_value : option T }.
  (** simple_store.go:32-34 *)
  Definition keyedLess (a b : keyedValue) : bool := strLess (kv_key a) (kv_key b).
  (** simple_store.go:36-40 without the constant fields *)
  Definition store := tree keyedValue.

  (** simple_store.go:54-56, record.go:418-421; None = panic *)
  Definition ToChangeLogEntry (item : T) : option Record_ :=
    match enc item with
    | None => None
    | Some b => Some (WriteKey [itemKey item] (WriteValue [b] blankRecord))
    end.

  (** simple_store.go:58-61: the tree is changed before the entry is made *)
  Definition Put (s : store) (item : T) : option Record_ * store :=
    let s' := snd (ReplaceOrInsert keyedLess s (mkKV (itemKey item) (Some item))) in
    (ToChangeLogEntry item, s').

  (** simple_store.go:63-72 *)
  Definition GetItem (s : store) (id : bytes) : option T :=
    match Get keyedLess s (mkKV id None) with Some kv => kv_value kv | None => None end.

  (** simple_store.go:74-82; None = (nil entry, false) *)
  Definition DeleteItem (s : store) (item : T) : option Record_ * store :=
    let '(old, s') := Delete keyedLess s (mkKV (itemKey item) None) in
    match old with
    | Some _ => (Some (WriteKey [itemKey item] blankRecord), s')
    | None => (None, s')
    end.

  (** simple_store.go:84-95: note the test [err != nil] on line 91; the returned error is the boolean *)
  Definition ReceiveChange (s : store) (record : IncomingRecord) : bool * store :=
    if (length (Value record) =? 0)%nat then
      (false, snd (Delete keyedLess s (mkKV (Key record) None)))
    else
      let '(item, err) := dec (Value record) in
      if err then (err, snd (ReplaceOrInsert keyedLess s (mkKV (itemKey item) (Some item))))
      else (err, s).

  (** an application: puts, deletes and gets; [log] collects the entries as they are produced *)
  Inductive op := OPut (item : T) | ODelete (item : T) | OGet (id : bytes).
  (** None = panic (an item that cannot be encoded) *)
  Definition step (s : store) (o : op) : option (list Record_ * option T * store) :=
    match o with
    | OPut item => match Put s item with
                   | (Some e, s') => Some ([e], None, s')
                   | (None, _) => None
                   end
    | ODelete item => match DeleteItem s item with
                      | (Some e, s') => Some ([e], None, s')
                      | (None, s') => Some ([], None, s')
                      end
    | OGet id => Some ([], GetItem s id, s)
    end.
  Fixpoint run (s : store) (os : list op) : option (list Record_ * list (option T) * store) :=
    match os with
    | [] => Some ([], [], s)
    | o :: os' =>
        match step s o with
        | None => None
        | Some (l, r, s1) =>
            match run s1 os' with
            | None => None
            | Some (l', rs, s2) => Some (l ++ l', r :: rs, s2)
            end
        end
    end.
  (** entries come back as incoming records (record.go:237-255, 89-99) *)
  Definition replay (s : store) (log : list Record_) : store :=
    fold_left (fun s e => snd (ReceiveChange s (newIncomingRecord (toKafkaRecord e)))) log s.
End Store.
Arguments keyedValue : clear implicits.
Arguments store : clear implicits.
Arguments op : clear implicits.
