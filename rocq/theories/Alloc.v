(** The counting allocator of /repo/example/perf.cpp (E/ below) and the report of
    the memory. *)
From Coq Require Import NArith.
From Verif Require Import Prelude.
From Verif Require Perf.
Notation wrap := Perf.wrap.

(** count_allocator_mem (E/ 45), and the arrays made by new char[] with their sizes *)
Record mem_state := Mem { mem : N; blocks : gmap N N }.
(** Allocators of one type are all equal (E/ 84-92) and have no state, so calls do
    not mention them.  [sz]: sizeof(T).  [Allocate sz n r]: allocate(n), [r]: the
    result, none if new throws *)
Inductive call := Allocate (sz n : N) (r : option N) | Deallocate (sz p n : N).
(** [No]: new does not return what is in use; [Undef]: delete[] of something else *)
Inductive result := Next (s : mem_state) | No | Undef.
Definition bytes (sz n : N) : N := wrap (n * sz).
Definition minus (a b : N) : N := wrap (a + (2 ^ 64 - b)).
Definition step (s : mem_state) (c : call) : result :=
  match c with
  (** E/ 67-72 *)
  | Allocate sz n None => Next s
  | Allocate sz n (Some p) =>
      match blocks s !! p with
      | Some _ => No
      | None => Next (Mem (wrap (mem s + bytes sz n)) (<[p := bytes sz n]> (blocks s)))
      end
  (** E/ 74-78 *)
  | Deallocate sz p n =>
      match blocks s !! p with
      | Some _ => Next (Mem (minus (mem s) (bytes sz n)) (delete p (blocks s)))
      | None => Undef
      end
  end.
Fixpoint run (s : mem_state) (cs : list call) : result :=
  match cs with [] => Next s | c :: cs => match step s c with Next s => run s cs | r => r end end.
Definition init : mem_state := Mem 0 ∅.
(** E/ 80 *)
Definition max_size : N := 2 ^ 64 - 1.
(** E/ 235-239: the three numbers, for vectors of these capacities *)
Definition report (s : mem_state) (sz cap cap2 : N) : N * N * N :=
  let f := bytes sz (wrap (cap + cap2)) in (mem s, f, minus (mem s) f).
