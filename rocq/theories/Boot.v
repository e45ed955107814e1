(** The streams of a board over several restarts.

    Source: /repo/macros/src/stream.rs (what is generated for each stream), /repo/src/stream/mod.rs lines 34-72
    ([init]), /repo/src/stream/runtime.rs, by the definitions of Stream.v.

    A board has several streams (one for each core), each with a runtime structure and a buffer behind it in a
    section of its own; memory survives a restart.  A probe may place a request in the buffer of a stream that is
    not yet initialised.

    Simplifications: the linker places the sections apart from each other, so each stream has a memory of its own
    (writes outside of a buffer are recorded by [soob]); [init] is called once after a restart; nothing is
    printed before; after a restart the probe continues with the cursor it finds in memory. *)
Require Import NArith List Bool.
From Verif Require Import Stream BootSpec.
Import ListNotations.
Open Scope N_scope.

(** stream.rs lines 110-111: [size] and [init_primary] of the layout. *)
Record dstream := Ds { d_size : N; d_primary : bool }.

(** A stream that is not initialised: the bytes from the start of its runtime structure on.  Then: Stream.v. *)
Inductive st := Off (m : N -> N) | On (x : ssys).
Record board := Board { b_mask : N; b_str : nat -> st }.

Definition upd {A} (f : nat -> A) (k : nat) (v : A) : nat -> A := fun j => if Nat.eqb j k then v else f j.

Definition le4 (v : N) : list N := [v mod 256; v / 256 mod 256; v / 65536 mod 256; v / 16777216 mod 256].
Definition get4 (m : N -> N) (a : N) : N := m a + 256 * m (a + 1) + 65536 * m (a + 2) + 16777216 * m (a + 3).
Fixpoint poke (m : N -> N) (a : N) (bs : list N) : N -> N :=
  match bs with [] => m | b :: r => poke (bput m a b) (a + 1) r end.

(** The structure drone_stream::Runtime, of three words: buffer_size, read_cursor, write_cursor (mod.rs line 69). *)
Definition words (rt : runtime) : list N := le4 (rt_size rt) ++ le4 (rt_r rt) ++ le4 (rt_w rt).
Definition struct_of (s : sst) : runtime := Rt (ssize s) (sr s) (sw s).

(** The memory [init] works on: the global runtime at 0, the stream at 16. *)
Definition flat (mask : N) (m : N -> N) : N -> N :=
  fun a => if a <? 4 then nth (N.to_nat a) (le4 mask) 0 else if a <? 16 then 0 else m (a - 16).
Definition open (m : N -> N) : ssys :=
  Ssys (Sst (fun x => m (28 + x)) (get4 m 16) (get4 m 24) (get4 m 20) false) WIdle (0, []) RIdle.
(** What is left in memory when the board is reset at any point. *)
Definition left (x : ssys) : N -> N :=
  fun a => if a <? 12 then nth (N.to_nat a) (words (struct_of (smem x))) 0 else sbuf (smem x) (a - 12).

Inductive act :=
| AReset
| ABoot (k : nat) (rt : runtime) (mask : N)
| AInit (k : nat)
| ARun (k : nat) (l : slabel)
| AMask (v : N)
| AAsk (s : N).

(** The words are of 32 bits. *)
Definition word_ok (v : N) : bool := v <? 2 ^ 32.
Definition rt_ok (rt : runtime) : bool := word_ok (rt_size rt) && word_ok (rt_r rt) && word_ok (rt_w rt).

Section Board.
Variables (boot : list N) (ds : list dstream).

Definition bstep (b : board) (a : act) : board * list bevent :=
  match a with
  | AReset =>
      (Board (b_mask b) (fun k => match b_str b k with On x => Off (left x) | Off m => Off m end), [EReset])
  | ABoot k rt v =>
      (* the sequence, the runtime structure, the global one: mod.rs lines 42-63 *)
      match nth_error ds k, b_str b k with
      | Some d, Off m =>
          if rt_ok rt && word_ok v && (N.of_nat (length boot) + 16 <=? d_size d) then
            (Board (b_mask b) (upd (b_str b) k (Off (poke m 12 (boot ++ words rt ++ le4 v)))), [EBoot k rt v])
          else (b, [])
      | _, _ => (b, [])
      end
  | AInit k =>
      (* stream.rs lines 146-155 *)
      match nth_error ds k, b_str b k with
      | Some d, Off m =>
          let m' := stream_init boot (flat (b_mask b) m) 16 0 (d_size d) (d_primary d) in
          (Board (get4 m' 0) (upd (b_str b) k (On (open m'))), [EInit k])
      | _, _ => (b, [])
      end
  | ARun k l =>
      match b_str b k with
      | On x => let (x', e) := sstep x l in (Board (b_mask b) (upd (b_str b) k (On x')), map (EStr k) e)
      | Off _ => (b, [])
      end
  | AMask v => if word_ok v then (Board v (b_str b), [EMask v]) else (b, [])
  | AAsk s => if s <? stream_count then (b, [EAsk s (is_enabled (b_mask b) s)]) else (b, [])
  end.

Fixpoint brun (b : board) (l : list act) : board * list bevent :=
  match l with
  | [] => (b, [])
  | a :: r => let (b1, e1) := bstep b a in let (b2, e2) := brun b1 r in (b2, e1 ++ e2)
  end.
End Board.
(** Power is switched on: memory has any contents. *)
Definition power_on (mask : N) (ms : nat -> N -> N) : board := Board mask (fun k => Off (ms k)).
