(** Model of two generators: the names the macros generate, and the initialisation of the heap. *)
Require Import NArith List Bool String.
Import ListNotations.
Open Scope N_scope.

(** macros-core/src/unkeywordize.rs lines 4-15: the words of the regular expression.  It is
    anchored at both ends, so a name matches when it is one of the words. *)
Definition KEYWORDS : list string :=
  ["as"; "break"; "const"; "continue"; "crate"; "else"; "enum"; "extern"; "false"; "fn"; "for"; "if";
   "impl"; "in"; "let"; "loop"; "match"; "mod"; "move"; "mut"; "pub"; "ref"; "return"; "Self"; "self";
   "static"; "struct"; "super"; "trait"; "true"; "type"; "unsafe"; "use"; "where"; "while"; "abstract";
   "alignof"; "become"; "box"; "do"; "final"; "macro"; "offsetof"; "override"; "priv"; "proc"; "pure";
   "sizeof"; "typeof"; "unsized"; "virtual"; "yield"]%string.
(** Lines 19-25. *)
Definition unkeywordize (ident : string) : string :=
  if existsb (String.eqb ident) KEYWORDS then (ident ++ "_")%string else ident.

(** macros/src/heap.rs lines 172-185: the memory after [init].  Memory consists of bytes;
    [w] is the size of [usize] in bytes; [load], [base] and [end_] are the addresses of the
    three symbols of lines 174-176, which the linker script defines.
    [copy_nonoverlapping] copies elements of type [usize]. *)
Definition heap_init (w load base end_ : N) (m : N -> N) : N -> N :=
  let n := w * N.shiftr (end_ - base) 2 in
  fun a => if (base <=? a) && (a <? base + n) then m (load + (a - base)) else m a.
(** Lines 141-144 and src/heap/pool.rs lines 19-29: the size of the metadata; both are
    [repr(C)], each of the fields is a word. *)
Definition heap_rt_size (w pools : N) : N := w * (1 + 4 * pools).
