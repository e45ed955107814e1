(** Model of the debug stream: the frame buffer shared with the debug probe, the
    splitting of long writes, initialisation, and heap trace frames.

    Source: /repo/src/stream/runtime.rs, /repo/src/stream/mod.rs,
    /repo/src/heap/trace.rs.  The constants of the external crate drone_stream are
    HEADER_LENGTH = 2 (cf. runtime.rs:94, which writes the payload at offset 2) and
    STREAM_COUNT = 32 (cf. the 32-bit enable mask). *)
Require Import NArith List Bool.
Import ListNotations.
Open Scope N_scope.

Definition u32 (x : N) : N := x mod 2 ^ 32.
Definition sub32 (a b : N) : N := u32 (a + 2 ^ 32 - b).
Definition header_length : N := 2.
Definition stream_count : N := 32.

(** A frame: stream number and payload. *)
Definition frame := (N * list N)%type.
Definition flen (f : frame) : N := N.of_nat (length (snd f)).
Definition enc (f : frame) : list N := fst f :: flen f :: snd f.

Definition bput (b : N -> N) (a v : N) : N -> N := fun x => if x =? a then v else b x.

(** The runtime structure and the buffer behind it; [soob] is set by a write outside
    the buffer. *)
Record sst := Sst { sbuf : N -> N; ssize : N; sw : N; sr : N; soob : bool }.

Definition put (s : sst) (a v : N) : sst :=
  Sst (bput (sbuf s) a v) (ssize s) (sw s) (sr s) (soob s || (ssize s <=? a)).
Definition set_w (s : sst) (w : N) : sst := Sst (sbuf s) (ssize s) w (sr s) (soob s).
Definition set_r (s : sst) (r : N) : sst := Sst (sbuf s) (ssize s) (sw s) r (soob s).

(** ** The writer: runtime.rs lines 76-104, one step per volatile access or byte
    written.  Runs inside [Interrupts::paused] (line 46), so that transactions do not
    overlap; the probe reads at any time. *)
Inductive wpos :=
| WIdle
| WReadR                        (* line 78 *)
| WReadW (r : N)                (* line 79 *)
| WByte (todo : list N) (at_ next : N)  (* lines 92-94, ascending *)
| WCommit (next : N)            (* line 95 *)
| WMark (at_ : N)               (* line 99 *)
| WMarkW                        (* line 100 *)
| WRes (b : bool).

(** Lines 80-90 and 98: the decision. *)
Definition decide (size r w : N) (f : frame) : wpos :=
  let wrapped := r <=? w in
  let available := sub32 (if wrapped then size else r) w in
  let fl := u32 (flen f + header_length) in
  if fl <=? available then
    let n0 := u32 (w + fl) in
    let next := if n0 =? size then 0 else n0 in
    if next =? r then WRes false else WByte (enc f) w next
  else if wrapped && negb (r =? 0) then WMark w else WRes false.

(** ** The reader: the debug probe, following the framing.  Not part of the
    repository; this is the protocol its frames are meant for. *)
Inductive rpos :=
| RIdle                         (* compare the cursors *)
| RKind                         (* read the first byte *)
| RSkip                         (* it was 0xFF: go to the start *)
| RLen (s : N)                  (* read the length *)
| RData (s n : N) (acc : list N). (* read the payload, then advance *)

Record ssys := Ssys { smem : sst; swp : wpos; sfr : frame; srp : rpos }.

(** Observable: a transaction is started; it returns true / false; the reader obtains
    a frame. *)
Inductive sevent := SStart (f : frame) | SWrote (f : frame) | SFailed (f : frame) | SRead (f : frame).

Inductive slabel :=
| LWrite (f : frame)            (* a transaction starts *)
| LW                            (* one step of the writer *)
| LR.                           (* one step of the reader *)

Definition wstep (x : ssys) : ssys * list sevent :=
  let s := smem x in
  let go s' w := Ssys s' w (sfr x) (srp x) in
  match swp x with
  | WIdle => (x, [])
  | WReadR => (go s (WReadW (sr s)), [])
  | WReadW r => (go s (decide (ssize s) r (sw s) (sfr x)), [])
  | WByte [] _ next => (go s (WCommit next), [])
  | WByte (b :: todo) a next => (go (put s a b) (WByte todo (a + 1) next), [])
  | WCommit next => (go (set_w s next) (WRes true), [SWrote (sfr x)])
  | WMark a => (go (put s a 255) WMarkW, [])
  | WMarkW => (go (set_w s 0) (WRes false), [])
  | WRes b => (go s WIdle, if b then [] else [SFailed (sfr x)])
  end.

Definition rstep (x : ssys) : ssys * list sevent :=
  let s := smem x in
  let go s' r := Ssys s' (swp x) (sfr x) r in
  match srp x with
  | RIdle => (if sr s =? sw s then x else go s RKind, [])
  | RKind => (go s (if sbuf s (sr s) =? 255 then RSkip else RLen (sbuf s (sr s))), [])
  | RSkip => (go (set_r s 0) RIdle, [])
  | RLen st => (go s (RData st (sbuf s (sr s + 1)) []), [])
  | RData st n acc =>
      let i := N.of_nat (length acc) in
      if i <? n then (go s (RData st n (acc ++ [sbuf s (sr s + 2 + i)])), [])
      else let r := sr s + 2 + n in
           (go (set_r s (if r =? ssize s then 0 else r)) RIdle, [SRead (st, acc)])
  end.

(** A transaction can start when none is in progress; mod.rs:140 requires a valid
    stream number, mod.rs:174 at most 255 bytes (u8 conversion). *)
Definition startable (f : frame) : bool := (fst f <? stream_count) && (flen f <? 256).

Definition sstep (x : ssys) (l : slabel) : ssys * list sevent :=
  match l with
  | LWrite f =>
      match swp x with
      | WIdle => if startable f then (Ssys (smem x) WReadR f (srp x), [SStart f]) else (x, [])
      | _ => (x, [])
      end
  | LW => wstep x
  | LR => rstep x
  end.

Fixpoint srun (x : ssys) (ls : list slabel) : ssys * list sevent :=
  match ls with
  | [] => (x, [])
  | l :: r => let (x1, e1) := sstep x l in let (x2, e2) := srun x1 r in (x2, e1 ++ e2)
  end.

(** mod.rs:69: after initialisation. *)
Definition sinit (buf : N -> N) (size : N) : ssys :=
  Ssys (Sst buf size 0 0 false) WIdle (0, []) RIdle.

(** ** runtime.rs lines 28-37 [write_bytes]: the transactions issued, as addresses
    and lengths; [fuel] bounds the loop. *)
Definition default_transaction_length : N := 64.
Fixpoint write_bytes (fuel : nat) (buffer len : N) : option (list (N * N)) :=
  match fuel with
  | O => None
  | S fuel =>
      if default_transaction_length <? len then
        match write_bytes fuel (buffer + default_transaction_length) (len - default_transaction_length) with
        | Some r => Some ((buffer, default_transaction_length) :: r)
        | None => None
        end
      else if 0 <? len then Some [(buffer, len mod 256)] else Some []
  end.

(** mod.rs lines 171-176 [write_transaction]: [None] is the panic of [expect]. *)
Definition write_transaction (st : N) (bytes : list N) : option frame :=
  if N.of_nat (length bytes) <? 256 then Some (st, bytes) else None.

(** ** mod.rs lines 36-72 [init], on a byte memory.  [rt] is the address of the
    runtime structure (three u32: buffer size, read cursor, write cursor; 12 bytes),
    the buffer follows it; [g] is the address of the global runtime (one u32: the
    enable mask).  Little-endian.  [boot] is BOOTSTRAP_SEQUENCE. *)
Definition runtime_size : N := 12.
Definition global_size : N := 4.

(** Lines 43-50: the remaining count after matching. *)
Fixpoint match_boot (m : N -> N) (buffer : N) (boot : list N) : N * N :=
  match boot with
  | [] => (buffer, 0)
  | b :: r => if m buffer =? b then match_boot m (buffer + 1) r else (buffer, N.of_nat (length boot))
  end.

Definition copy (m : N -> N) (src dst n : N) : N -> N :=
  fun a => if (dst <=? a) && (a <? dst + n) then m (a - dst + src) else m a.
Definition fill (m : N -> N) (dst n v : N) : N -> N :=
  fun a => if (dst <=? a) && (a <? dst + n) then v else m a.
Definition put32 (m : N -> N) (a v : N) : N -> N :=
  fun x => if (a <=? x) && (x <? a + 4) then N.shiftr v (8 * (x - a)) mod 256 else m x.

Definition stream_init (boot : list N) (m : N -> N) (rt g size : N) (init_global : bool) : N -> N :=
  let (buffer, counter) := match_boot m (rt + runtime_size) boot in
  if counter =? 0 then
    let m1 := copy m buffer rt runtime_size in
    let buffer := buffer + runtime_size in
    let m2 := if init_global then copy m1 buffer g global_size else m1 in
    bput m2 (rt + runtime_size) 0
  else
    let m1 := if init_global then fill m g global_size 0 else m in
    put32 (put32 (put32 m1 rt size) (rt + 4) 0) (rt + 8) 0.

(** runtime.rs lines 20-22 [is_enabled]. *)
Definition is_enabled (mask st : N) : bool := negb (N.land mask (N.shiftl 1 st) =? 0).

(** ** /repo/src/heap/trace.rs lines 6-55.  The payload: the bytes of an array of
    native words [op.to_be(), sizes...] from byte 3 on ([ws] is the word size in
    bytes; native order little-endian; sizes are words). *)
Fixpoint le_bytes (n : nat) (v : N) : list N :=
  match n with O => [] | S n => v mod 256 :: le_bytes n (v / 256) end.
Definition to_be (ws : nat) (v : N) : list N := rev (le_bytes ws v).   (* bytes in memory *)

Inductive heap_op := HAlloc (n : N) | HDealloc (n : N) | HGrow (o n : N) | HShrink (o n : N).

(** The operation code [to_be], then the sizes; lines 9-11, 22-24, 35-37, 48-50. *)
Definition trace_buf (ws : nat) (o : heap_op) : list N :=
  match o with
  | HAlloc n => to_be ws 0 ++ le_bytes ws n
  | HDealloc n => to_be ws 1 ++ le_bytes ws n
  | HGrow o n => to_be ws 2 ++ le_bytes ws o ++ le_bytes ws n
  | HShrink o n => to_be ws 3 ++ le_bytes ws o ++ le_bytes ws n
  end.
Definition trace (ws : nat) (mask st : N) (o : heap_op) : list frame :=
  if is_enabled mask st then [(st, skipn 3 (trace_buf ws o))] else [].

(** The generated [Allocator] methods, /repo/macros/src/heap.rs lines 208-318, and
    [GlobalAlloc], lines 324-341: what each traces before operating. *)
Inductive alloc_call :=
| CAllocate (n : N) | CAllocateZeroed (n : N) | CDeallocate (n : N)
| CGrow (o n : N) | CGrowZeroed (o n : N) | CShrink (o n : N)
| CGlobalAlloc (n : N) | CGlobalDealloc (n : N).
Definition call_op (c : alloc_call) : option heap_op :=
  match c with
  | CAllocate n | CGlobalAlloc n => Some (HAlloc n)
  | CDeallocate n | CGlobalDealloc n => Some (HDealloc n)
  | CGrow o n => Some (HGrow o n)
  | CShrink o n => Some (HShrink o n)
  | CAllocateZeroed _ | CGrowZeroed _ _ => None
  end.
Definition call_trace (ws : nat) (mask st : N) (c : alloc_call) : list frame :=
  match call_op c with Some o => trace ws mask st o | None => [] end.
