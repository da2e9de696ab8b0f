(** Bench_Model.v -- operation counts used by the benchmarks.  Paths are relative to /repo/include. *)
From Coq Require Import ZArith List String.
From Verif Require Import Base.
Import ListNotations.
Open Scope Z_scope.

(** std::size_t is a 64-bit word: every result is reduced modulo 2^64. *)
Definition W : Z := 2 ^ 64.
Definition wadd (a b : Z) := (a + b) mod W.
Definition wsub (a b : Z) := (a - b) mod W.
Definition wmul (a b : Z) := (a * b) mod W.
Definition wdiv (a b : Z) := a / b.

(** using Complexity = std::map<std::string, std::size_t>: bench/Complexity.hpp:17; keys are distinct *)
Definition complexity := list (string * Z).
Fixpoint find_op (c : complexity) (op : string) : option Z :=
  match c with [] => None | (k, v) :: c => if string_dec k op then Some v else find_op c op end.

(** complexityPotrf(m, n): bench/Complexity.hpp:21-36 *)
Definition complexity_potrf (m n : Z) : res complexity :=
  if m <? n then Throw InvalidArgument
  else
    let t := wdiv (wmul (wmul (wsub (wadd 1 (wmul 3 m)) (wmul 2 n)) (wsub n 1)) n) 6 in
    Ok [("add"%string, t); ("mul"%string, t);
        ("div"%string, wdiv (wmul n (wsub (wadd 1 (wmul 2 m)) n)) 2);
        ("sqrt"%string, n)].
(** complexityGetrf(m, n): bench/Complexity.hpp:40-53 *)
Definition complexity_getrf (m n : Z) : res complexity :=
  let (m, n) := if m <? n then (n, m) else (m, n) in
  let t := wdiv (wmul (wmul (wadd (wsub 2 m) (wmul 3 n)) (wsub m 1)) m) 6 in
  Ok [("add"%string, t); ("mul"%string, t); ("div"%string, wdiv (wmul m (wsub m 1)) 2)].
(** complexityTrsm(m, n): bench/Complexity.hpp:57-67 *)
Definition complexity_trsm (m n : Z) : res complexity :=
  let t := wdiv (wmul (wmul m (wsub n 1)) n) 2 in
  Ok [("add"%string, t); ("mul"%string, t); ("div"%string, wdiv (wmul n (wsub (wadd 1 (wmul 2 m)) n)) 2)].
(** setCounters(counters, c): bench/Complexity.hpp:70-86; the counters afterwards, latest assignment first *)
Definition set_counters (counters c : complexity) : complexity :=
  let counters := fold_left (fun acc v => (("f." ++ fst v)%string, snd v) :: acc) c counters in
  let flops := fold_left (fun f op => match find_op c op with Some v => wadd f v | None => f end) ["add"; "mul"]%string 0 in
  ("flops"%string, flops) :: counters.

(** complexityGemm(m, n, k): bench/Gemm.hpp:15-21 *)
Definition complexity_gemm (m n k : Z) : res complexity :=
  Ok [("add"%string, wmul (wmul m n) (wadd k 1)); ("mul"%string, wmul (wmul m n) (wadd k 2))].
(** complexity(IamaxTag, n): bench/Iamax.hpp:18-24 *)
Definition complexity_iamax (n : Z) : res complexity := Ok [("cmp"%string, wsub n 1); ("abs"%string, n)].
(** complexity(TrsmTag, unit, m, n): bench/Trsm.hpp:29-36 *)
Definition complexity_trsm2 (unit : bool) (m n : Z) : res complexity :=
  let t := wmul (wdiv (wsub (wmul m m) m) 2) n in
  Ok [("add"%string, t); ("mul"%string, t); ("div"%string, if unit then 0 else m)].
(** complexitySyrk(m, k): /repo/bench/common/Syrk.cpp:17-23 *)
Definition complexity_syrk (m k : Z) : res complexity :=
  let t := wdiv (wmul (wmul m (wadd m 1)) k) 2 in Ok [("add"%string, t); ("mul"%string, t)].
