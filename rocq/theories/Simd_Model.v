(** Simd_Model.v -- SIMD vectors, masked access, pointer load/store, vector pointers.
    Paths are relative to /repo/include/blast/math. *)
From Coq Require Import Arith List Bool PeanoNat ZArith.
From Verif Require Import Base Layout_Model.
Import ListNotations.

Section Simd.
Variable SS : nat.
Variable T : Type.
Variable O : Ops T.

(** simd/SimdVec.hpp:129-320  a SIMD vector; only lanes l < SS are meaningful. *)
Definition vec := nat -> T.
(** simd/SimdMask.hpp:30-100 *)
Definition mask := nat -> bool.

(** simd/SimdVec.hpp:166-170 broadcast constructor *)
Definition vbroadcast (x : T) : vec := fun _ => x.
(** simd/SimdVec.hpp:322-340 fmadd, fnmadd: lane-wise xsimd::fma / xsimd::fnma *)
Definition vfmadd (a b c : vec) : vec := fun l => ofma O (a l) (b l) (c l).
Definition vfnmadd (a b c : vec) : vec := fun l => ofnma O (a l) (b l) (c l).
(** simd/SimdVec.hpp:365-380 operator*, :273-283 operator*=, :285-295 operator/= *)
Definition vmul (a b : vec) : vec := fun l => omul O (a l) (b l).
Definition vdiv (a b : vec) : vec := fun l => odiv O (a l) (b l).
(** simd/SimdVec.hpp:349-352 abs; :343-346 blend(a, b, mask) = mask ? a : b; :355-358 operator> *)
Definition vabs (a : vec) : vec := fun l => oabs O (a l).
Definition vblend (a b : vec) (mk : mask) : vec := fun l => if mk l then a l else b l.
Definition vgt (a b : vec) : mask := fun l => oltb O (b l) (a l).

(** SimdVec{src, aligned} (simd/SimdVec.hpp:179-182): xsimd::load_aligned / load_unaligned. *)
Definition simd_load (al : alloc) (aligned : bool) (a : nat) (m : mem T) : res vec :=
  if aligned && negb (a mod SS =? 0) then UB
  else if forallb (fun l => al (a + l)) (seq 0 SS) then Ok (fun l => m (a + l)) else UB.

(** SimdVec{src, mask, aligned} (simd/SimdVec.hpp:192-195): maskload, simd/arch/Avx2.hpp:32-45.
    The aligned argument is ignored; unselected lanes are zero and are not read. *)
Definition simd_maskload (al : alloc) (a : nat) (mk : mask) (m : mem T) : res vec :=
  if forallb (fun l => negb (mk l) || al (a + l)) (seq 0 SS)
  then Ok (fun l => if mk l then m (a + l) else o0 O) else UB.

(** SimdVec::store(dst, aligned) (simd/SimdVec.hpp:246-252) *)
Definition simd_store (al : alloc) (aligned : bool) (a : nat) (v : vec) (m : mem T) : res (mem T) :=
  if aligned && negb (a mod SS =? 0) then UB
  else if forallb (fun l => al (a + l)) (seq 0 SS)
  then Ok (fun x => if (a <=? x) && (x <? a + SS) then v (x - a) else m x) else UB.

(** SimdVec::store(dst, mask, aligned) (simd/SimdVec.hpp:262-265): maskstore, simd/arch/Avx2.hpp:48-61 *)
Definition simd_maskstore (al : alloc) (a : nat) (v : vec) (mk : mask) (m : mem T) : res (mem T) :=
  if forallb (fun l => negb (mk l) || al (a + l)) (seq 0 SS)
  then Ok (fun x => if (a <=? x) && (x <? a + SS) && mk (x - a) then v (x - a) else m x) else UB.

(** simd/arch/Neon64.hpp:25-58 maskload: v = 0; for each selected lane v[l] = src[l].
    (The code is the unrolled loop for SS = 4 and SS = 2.) *)
Definition neon_maskload (al : alloc) (a : nat) (mk : mask) (m : mem T) : res vec :=
  for_ 0 SS (fun l v => if mk l then x <- rd al m (a + l) ;; Ok (mupd v l x) else Ok v) (fun _ => o0 O).
(** simd/arch/Neon64.hpp:63-88 maskstore *)
Definition neon_maskstore (al : alloc) (a : nat) (v : vec) (mk : mask) (m : mem T) : res (mem T) :=
  for_ 0 SS (fun l m => if mk l then wr al m (a + l) (v l) else Ok m) m.

(** indexSequence<T>() < n and indexSequence<T>() >= n for a signed n (simd/SimdIndex.hpp:90-101);
    all indices and sizes fit in the signed integer type of the element's width. *)
Definition idx_lt (n : Z) : mask := fun l => (Z.of_nat l <? n)%Z.
Definition idx_ge (n : Z) : mask := fun l => (n <=? Z.of_nat l)%Z.
Definition mask_and (a b : mask) : mask := fun l => a l && b l.

(* ------------------------------------------------------------------------------------------ *)
(** ** Horizontal maximum with index *)

(** One exchange step of simd/arch/Avx2.hpp:66-131: w = permuted v, then
    mask = w > v; v' = blendv(v, w, mask); idx' = blendv(idx, iw, mask). *)
Definition imax_step_avx (perm : nat -> nat) (s : vec * (nat -> Z)) : vec * (nat -> Z) :=
  let v := fst s in let idx := snd s in
  let mk := fun l => oltb O (v l) (v (perm l)) in
  (fun l => if mk l then v (perm l) else v l, fun l => if mk l then idx (perm l) else idx l).
(** One exchange step of simd/arch/Neon64.hpp:93-132: mask = v > w; v' = bsl(mask, v, w). *)
Definition imax_step_neon (perm : nat -> nat) (s : vec * (nat -> Z)) : vec * (nat -> Z) :=
  let v := fst s in let idx := snd s in
  let mk := fun l => oltb O (v (perm l)) (v l) in
  (fun l => if mk l then v l else v (perm l), fun l => if mk l then idx l else idx (perm l)).

(** _mm256_permute_ps: the 2-bit selectors s0 (lane 0) .. s3 apply to both 128-bit halves. *)
Definition permute_ps (s0 s1 s2 s3 : nat) (l : nat) : nat :=
  l / 4 * 4 + nth (l mod 4) [s0; s1; s2; s3] 0.
(** simd/arch/Avx2.hpp:66-107 (float, 8 lanes): selectors 0b10'11'00'01, 0b00'00'10'10, half swap *)
Definition imax_avx_float (s : vec * (nat -> Z)) :=
  imax_step_avx (fun l => (l + 4) mod 8)
    (imax_step_avx (permute_ps 2 2 0 0) (imax_step_avx (permute_ps 1 0 3 2) s)).
(** simd/arch/Avx2.hpp:112-131 (double, 4 lanes): half swap, then _mm256_permute_pd(.., 5) *)
Definition imax_avx_double (s : vec * (nat -> Z)) :=
  imax_step_avx (fun l => nth l [1; 0; 3; 2] 0) (imax_step_avx (fun l => (l + 2) mod 4) s).
(** simd/arch/Neon64.hpp:93-113 (float, 4 lanes): vextq by 1, then by 2 *)
Definition imax_neon_float (s : vec * (nat -> Z)) :=
  imax_step_neon (fun l => (l + 2) mod 4) (imax_step_neon (fun l => (l + 1) mod 4) s).
(** simd/arch/Neon64.hpp:118-132 (double, 2 lanes): vextq by 1 *)
Definition imax_neon_double (s : vec * (nat -> Z)) :=
  imax_step_neon (fun l => (l + 1) mod 2) s.

(* ------------------------------------------------------------------------------------------ *)
(** ** Matrix pointer load / store *)

(** p.load(): dense/DynamicMatrixPointer.hpp:52-55 (dense), panel/DynamicPanelMatrixPointer.hpp:56-68
    (panel: aligned load, or element by element through the unaligned pointer). *)
Definition mp_load (al : alloc) (p : mptr) (m : mem T) : res vec :=
  match mp_kind p with
  | Dense => simd_load al (mp_af p) (mp_base p) m
  | Panel =>
      if mp_af p then simd_load al true (mp_base p) m
      else for_ 0 SS (fun i tmp =>
             x <- rd al m (match mp_so p with
                           | columnMajor => addr SS (punalign SS p) i 0
                           | rowMajor => addr SS (punalign SS p) 0 i end) ;;
             Ok (mupd tmp i x)) (fun _ => o0 O)
  end.

(** p.load(mask): dense/DynamicMatrixPointer.hpp:58-61, panel/DynamicPanelMatrixPointer.hpp:71-74 *)
Definition mp_loadm (al : alloc) (p : mptr) (mk : mask) (m : mem T) : res vec :=
  simd_maskload al (mp_base p) mk m.

Definition majorOrientation (so : order) : tflag :=
  match so with columnMajor => columnVector | rowMajor => rowVector end.

(** p.load(orientation): dense/DynamicMatrixPointer.hpp:64-70, panel/StaticPanelMatrixPointer.hpp:74-80
    (panel/DynamicPanelMatrixPointer.hpp:77-86 is the same for aligned pointers and does not compile
    for unaligned ones). *)
Definition mp_loadt (al : alloc) (p : mptr) (tf : tflag) (m : mem T) : res vec :=
  if tflag_eqb tf (majorOrientation (mp_so p)) then simd_load al (mp_af p) (mp_base p) m
  else Throw LogicError.
(** p.load(orientation, mask): dense/DynamicMatrixPointer.hpp:73-79, panel/DynamicPanelMatrixPointer.hpp:89-95 *)
Definition mp_loadtm (al : alloc) (p : mptr) (tf : tflag) (mk : mask) (m : mem T) : res vec :=
  if tflag_eqb tf (majorOrientation (mp_so p)) then simd_maskload al (mp_base p) mk m
  else Throw LogicError.

(** p.store(v), p.store(v, mask): dense/DynamicMatrixPointer.hpp:82-91,
    panel/DynamicPanelMatrixPointer.hpp:98-109 (static_assert(AF)) *)
Definition mp_store (al : alloc) (p : mptr) (v : vec) (m : mem T) : res (mem T) :=
  match mp_kind p, mp_af p with
  | Panel, false => IllFormed
  | _, af => simd_store al af (mp_base p) v m
  end.
Definition mp_storem (al : alloc) (p : mptr) (v : vec) (mk : mask) (m : mem T) : res (mem T) :=
  match mp_kind p, mp_af p with
  | Panel, false => IllFormed
  | _, _ => simd_maskstore al (mp_base p) v mk m
  end.

(* ------------------------------------------------------------------------------------------ *)
(** ** Vector pointers *)

(** [VMat tf p]   : RowColumnVectorPointer<MP, TF> (RowColumnVectorPointer.hpp);
    [VStat s af b]: StaticVectorPointer with static element spacing s (dense/StaticVectorPointer.hpp);
    [VDyn s b]    : DynamicVectorPointer (dense/DynamicVectorPointer.hpp; its AF does not change its behaviour). *)
Inductive vptr := VMat (tf : tflag) (p : mptr) | VStat (s : nat) (af : bool) (b : nat) | VDyn (s b : nat).

(** v[i]: RowColumnVectorPointer.hpp:117-120, dense/StaticVectorPointer.hpp:131-134,192-195,
    dense/DynamicVectorPointer.hpp:124-127,186-189 *)
Definition vaddr (v : vptr) (i : nat) : nat :=
  match v with
  | VMat columnVector p => addr SS p i 0
  | VMat rowVector p => addr SS p 0 i
  | VStat s _ b => b + i * s
  | VDyn s b => b + i * s
  end.
(** v(i): RowColumnVectorPointer.hpp:104-107, dense/StaticVectorPointer.hpp:118-121,
    dense/DynamicVectorPointer.hpp:111-114 *)
Definition voff (v : vptr) (i : nat) : vptr :=
  match v with
  | VMat columnVector p => VMat columnVector (poff SS p i 0)
  | VMat rowVector p => VMat rowVector (poff SS p 0 i)
  | VStat s af b => VStat s af (b + i * s)
  | VDyn s b => VDyn s (b + i * s)
  end.
(** ~v: RowColumnVectorPointer.hpp:137-140, dense/StaticVectorPointer.hpp:162-165 *)
Definition vunalign (v : vptr) : vptr :=
  match v with VMat tf p => VMat tf (punalign SS p) | VStat s _ b => VStat s false b | VDyn s b => VDyn s b end.
(** v.trans(): RowColumnVectorPointer.hpp:148-151, dense/StaticVectorPointer.hpp:173-176;
    the orientation of the strided pointers is a template parameter without run-time effect. *)
Definition vtrans (v : vptr) : vptr :=
  match v with VMat tf p => VMat (tflag_neg tf) (ptrans SS p) | _ => v end.

(** gather loop: for (i < SS) v[i] = ptr_[s * i] (dense/DynamicVectorPointer.hpp:53-62) *)
Definition gather (al : alloc) (b s : nat) (m : mem T) : res vec :=
  for_ 0 SS (fun i v => x <- rd al m (b + s * i) ;; Ok (mupd v i x)) (fun _ => o0 O).
(** dense/DynamicVectorPointer.hpp:65-74 *)
Definition gatherm (al : alloc) (b s : nat) (mk : mask) (m : mem T) : res vec :=
  for_ 0 SS (fun i v => x <- (if mk i then rd al m (b + s * i) else Ok (o0 O)) ;; Ok (mupd v i x)) (fun _ => o0 O).
(** dense/DynamicVectorPointer.hpp:77-82, 85-91 *)
Definition scatter (al : alloc) (b s : nat) (v : vec) (m : mem T) : res (mem T) :=
  for_ 0 SS (fun i m => wr al m (b + s * i) (v i)) m.
Definition scatterm (al : alloc) (b s : nat) (v : vec) (mk : mask) (m : mem T) : res (mem T) :=
  for_ 0 SS (fun i m => if mk i then wr al m (b + s * i) (v i) else Ok m) m.

(** v.load(): RowColumnVectorPointer.hpp:57-60 (noexcept: the LogicError of a cross-load terminates),
    dense/StaticVectorPointer.hpp:46-61, dense/DynamicVectorPointer.hpp:53-62 *)
Definition vload (al : alloc) (v : vptr) (m : mem T) : res vec :=
  match v with
  | VMat tf p => noexcept (mp_loadt al p tf m)
  | VStat s af b => if s =? 1 then simd_load al af b m else gather al b s m
  | VDyn s b => gather al b s m
  end.
(** v.load(mask): RowColumnVectorPointer.hpp:63-66, dense/StaticVectorPointer.hpp:64-81,
    dense/DynamicVectorPointer.hpp:65-74 *)
Definition vloadm (al : alloc) (v : vptr) (mk : mask) (m : mem T) : res vec :=
  match v with
  | VMat tf p => noexcept (mp_loadtm al p tf mk m)
  | VStat s af b => if s =? 1 then simd_maskload al b mk m else gatherm al b s mk m
  | VDyn s b => gatherm al b s mk m
  end.
(** v.store(x): dense/StaticVectorPointer.hpp:84-97, dense/DynamicVectorPointer.hpp:77-82.
    RowColumnVectorPointer.hpp:69-72 calls ptr_.store(tf, x), which no matrix pointer class has: ill-formed. *)
Definition vstore (al : alloc) (v : vptr) (x : vec) (m : mem T) : res (mem T) :=
  match v with
  | VMat _ _ => IllFormed
  | VStat s af b => if s =? 1 then simd_store al af b x m else scatter al b s x m
  | VDyn s b => scatter al b s x m
  end.
(** v.store(x, mask): dense/StaticVectorPointer.hpp:100-114 (for spacing 1 it calls SimdVec::store(ptr, mask),
    which does not exist: ill-formed), dense/DynamicVectorPointer.hpp:85-91 *)
Definition vstorem (al : alloc) (v : vptr) (x : vec) (mk : mask) (m : mem T) : res (mem T) :=
  match v with
  | VMat _ _ => IllFormed
  | VStat s af b => if s =? 1 then IllFormed else scatterm al b s x mk m
  | VDyn s b => scatterm al b s x mk m
  end.

End Simd.
