(** Model of streams/codec.go (integer codecs) and the helpers in streams/commit_log.go they use. *)
From Coq Require Import ZArith List Strings.Byte.
From Verif.Base Require Import GoInt Bytes.
Import ListNotations.
Open Scope Z_scope.

(** Outcome of a Go function that dereferences memory.
    [OutOfBounds]: memory beyond the slice is read through an unsafe pointer (undefined value).
    [Panic]: run-time panic (index out of range). *)
Inductive outcome (A : Type) : Type :=
| Ok (a : A)
| Panic
| OutOfBounds.
Arguments Ok {A} a.
Arguments Panic {A}.
Arguments OutOfBounds {A}.

(** commit_log.go:36  [intByteSize = unsafe.Sizeof(uintptr(1))]: 8 on a 64-bit platform. *)
Definition intByteSize : nat := 8.

(** commit_log.go:45-49 [writeSignedIntToByteArray]: appends the 8 bytes of int64(i), native
    (little-endian) order, to the buffer.  The buffer is returned.  The value [i] of type T is an
    integer in T's range; int64(i) keeps it. *)
Definition writeSignedIntToByteArray (i : Z) (buf : bytes) : bytes :=
  buf ++ le_bytes intByteSize (u64 i).

(** commit_log.go:51-53 [readIntegerFromByteArray[T]]: [&b[0]] panics on an empty slice; the load of 8
    bytes is not bounds-checked; the conversion T(..) truncates, given here as [conv]
    (s64 for int and int64, s32 for int32). *)
Definition readIntegerFromByteArray (conv : Z -> Z) (b : bytes) : outcome Z :=
  match b with
  | [] => Panic
  | _ => if (length b <? intByteSize)%nat then OutOfBounds
         else Ok (conv (s64 (le_val (firstn intByteSize b))))
  end.

(** codec.go:73-76 and 78-80 [intCodec.Encode], [intCodec.Decode]: the error is always nil. *)
Definition intCodec_Encode (b : bytes) (i : Z) : bytes := writeSignedIntToByteArray i b.
Definition intCodec_Decode (conv : Z -> Z) (b : bytes) : outcome Z := readIntegerFromByteArray conv b.

(** codec.go:82-92: the three instances. *)
Definition IntCodec_Encode := intCodec_Encode.
Definition IntCodec_Decode := intCodec_Decode s64.
Definition Int64Codec_Encode := intCodec_Encode.
Definition Int64Codec_Decode := intCodec_Decode s64.
Definition Int32Codec_Encode := intCodec_Encode.
Definition Int32Codec_Decode := intCodec_Decode s32.

(** codec.go:102 [LexInt64Size]: 8 + 1. *)
Definition LexInt64Size : nat := 9.

(** codec.go:105-115 [lexoInt64Codec.Encode]: sign byte 1 for positive values, then the little-endian
    uint64; non-positive values are biased by MaxInt64 (int64 addition, explicit wrap). *)
Definition lexoInt64Codec_Encode (buf : bytes) (i : Z) : bytes :=
  buf ++
  (if 0 <? i
   then x01 :: le_bytes 8 (u64 i)
   else x00 :: le_bytes 8 (u64 (s64 (MaxInt64 + i)))).

(** codec.go:118-128 [lexoInt64Codec.Decode]: [None] is the error result. *)
Definition lexoInt64Codec_Decode (b : bytes) : option Z :=
  if negb (length b =? LexInt64Size)%nat then None
  else match b with
       | [] => None (* unreachable: length 9 *)
       | sign :: rest =>
           let val := s64 (le_val rest) in
           if Byte.eqb sign x01 then Some val else Some (s64 (val - MaxInt64))
       end.

(** codec.go [StringCodec], [ByteCodec]: identity on the bytes. *)
Definition StringCodec_Encode (buf s : bytes) : bytes := buf ++ s.
Definition StringCodec_Decode (b : bytes) : option bytes := Some b.
