(** Model of the pseudo-random generators libcfa/src/bits/random.hfa.  Unsigned integers of [w] bits are integers in
    [0, 2^w); shifts left, sums and products are reduced modulo 2^w as the C types do.  Each generator is a function from
    the state to the returned value and the next state. *)
From Coq Require Import ZArith.
Local Open Scope Z_scope.

Definition shl (w x k : Z) : Z := Z.land (Z.shiftl x k) (Z.ones w).
Definition shr (x k : Z) : Z := Z.shiftr x k.
Definition addw (w x y : Z) : Z := (x + y) mod 2 ^ w.
Definition mulw (w x y : Z) : Z := (x * y) mod 2 ^ w.
(** rotl, random.hfa:214-216 and 253-255 *)
Definition rotl (w x k : Z) : Z := Z.lor (shl w x k) (shr x (w - k)).

(** splitmix64, random.hfa:138-144 *)
Definition mix64 (z : Z) : Z :=
  let z := mulw 64 (Z.lxor z (shr z 30)) 0xbf58476d1ce4e5b9 in
  let z := mulw 64 (Z.lxor z (shr z 27)) 0x94d049bb133111eb in
  Z.lxor z (shr z 31).
Definition splitmix64 (state : Z) : Z * Z :=
  let state := addw 64 state 0x9e3779b97f4a7c15 in (mix64 state, state).

(** splitmix32, random.hfa:156-162; [z] is a uint64_t, the result is truncated *)
Definition mix32 (z : Z) : Z :=
  let z := mulw 64 (Z.lxor z (shr z 15)) 0x85ebca6b in
  let z := mulw 64 (Z.lxor z (shr z 13)) 0xc2b2ae35 in
  Z.lxor z (shr z 16) mod 2 ^ 32.
Definition splitmix32 (state : Z) : Z * Z :=
  let state := addw 32 state 0x9e3779b9 in (mix32 state, state).

(** lehmer64, random.hfa:171-180 *)
Definition lehmer64 (state : Z) : Z * Z := (shr state 64, mulw 128 state 0xda942042e4dd58b5).
Definition lehmer64_set_seed (seed : Z) : Z := fst (splitmix64 seed).

(** wyhash64, random.hfa:183-192 *)
Definition wyhash64 (state : Z) : Z * Z :=
  let tmp := mulw 128 state 0xa3b195354a39b70d in
  let m1 := Z.lxor (shr tmp 64) tmp mod 2 ^ 64 in
  let tmp := mulw 128 m1 0x1b03738712fad5c9 in
  (Z.lxor (shr tmp 64) tmp mod 2 ^ 64, addw 64 state 0x60bee2bee120fc15).

(** xoshiro256pp, random.hfa:213-228, and xoshiro128pp :252-267 *)
Record quad := Q { q0 : Z; q1 : Z; q2 : Z; q3 : Z }.
Definition xoshiro (w r1 sh r2 : Z) (rs : quad) : Z * quad :=
  let '(Q s0 s1 s2 s3) := rs in
  let result := addw w (rotl w (addw w s0 s3) r1) s0 in
  let t := shl w s1 sh in
  let s2 := Z.lxor s2 s0 in
  let s3 := Z.lxor s3 s1 in
  let s1 := Z.lxor s1 s2 in
  let s0 := Z.lxor s0 s3 in
  let s2 := Z.lxor s2 t in
  let s3 := rotl w s3 r2 in
  (result, Q s0 s1 s2 s3).
Definition xoshiro256pp := xoshiro 64 23 17 45.
Definition xoshiro128pp := xoshiro 32 7 9 11.
(** xoshiro256pp_set_seed, random.hfa:230-237 *)
Definition xoshiro256pp_set_seed (seed : Z) : quad :=
  let '(seed1, seed) := splitmix64 seed in
  let '(seed2, seed) := splitmix64 seed in
  let '(seed3, seed) := splitmix64 seed in
  let '(seed4, seed) := splitmix64 seed in
  Q seed1 seed2 seed3 seed4.

(** xorshift_13_7_17, random.hfa:279-285 *)
Definition xorshift_13_7_17 (state : Z) : Z * Z :=
  let ret := state in
  let state := Z.lxor state (shl 64 state 13) in
  let state := Z.lxor state (shr state 7) in
  let state := Z.lxor state (shl 64 state 17) in
  (ret, state).
(** the set_seed routines of the three xorshift generators, random.hfa:287, 304, 318 *)
Definition xorshift_13_7_17_set_seed (seed : Z) : Z := fst (splitmix64 seed).
Definition xorshift_6_21_7_set_seed (seed : Z) : Z := fst (splitmix32 seed).
Definition xorshift_12_25_27_set_seed (seed : Z) : Z := fst (splitmix64 seed).

(** xorshift_6_21_7, random.hfa:296-302 *)
Definition xorshift_6_21_7 (state : Z) : Z * Z :=
  let ret := state in
  let state := Z.lxor state (shl 32 state 6) in
  let state := Z.lxor state (shr state 21) in
  let state := Z.lxor state (shl 32 state 7) in
  (ret, state).

(** xorshift_12_25_27, random.hfa:310-316 *)
Definition xorshift_12_25_27 (state : Z) : Z * Z :=
  let ret := state in
  let state := Z.lxor state (shr state 12) in
  let state := Z.lxor state (shl 64 state 25) in
  let state := Z.lxor state (shr state 27) in
  (mulw 64 ret 0x2545F4914F6CDD1D, state).

(** kiss_64, random.hfa:328-337, with the fields z, w, jsr, jcong; set_seed :339-341 *)
Definition kiss_mwc (c x : Z) : Z := addw 64 (mulw 64 c (Z.land x 65535)) (shr x 16).
Definition kiss_jsr (jsr : Z) : Z :=
  let jsr := Z.lxor jsr (shl 64 jsr 13) in
  let jsr := Z.lxor jsr (shr jsr 17) in
  Z.lxor jsr (shl 64 jsr 5).
Definition kiss_jcong (j : Z) : Z := addw 64 (mulw 64 69069 j) 1234567.
Definition kiss_64 (rs : quad) : Z * quad :=
  let '(Q z w jsr jcong) := rs in
  (addw 64 (Z.lxor (addw 64 (shl 64 z 16) w) jcong) jsr,
   Q (kiss_mwc 36969 z) (kiss_mwc 18000 w) (kiss_jsr jsr) (kiss_jcong jcong)).
Definition kiss_64_set_seed (seed : Z) : quad := Q 1 1 4 (fst (splitmix64 seed)).

(** xorwow, random.hfa:349-365 *)
Record wow := W { wa : Z; wb : Z; wc : Z; wd : Z; counter : Z }.
Definition xorwow (rs : wow) : Z * wow :=
  let '(W a b c d n) := rs in
  let ret := addw 32 a n in
  let t := d in
  let s := a in
  let d := c in
  let c := b in
  let b := s in
  let t := Z.lxor t (shr t 2) in
  let t := Z.lxor t (shl 32 t 1) in
  let t := Z.lxor t (Z.lxor s (shl 32 s 4)) in
  (ret, W t b c d (addw 32 n 362437)).

(** LCGBI_fwd, LCGBI_bck, random.hfa:378-394; the arithmetic is in uint64_t, the results are uint32_t *)
Definition LM : Z := 2 ^ 48.
Definition LA : Z := 25214903917.
Definition LAI : Z := 18446708753438544741.
Definition LCGBI_fwd (rs : Z) : Z * Z :=
  let rs := Z.land (addw 64 (mulw 64 LA rs) 11) (LM - 1) in (shr rs 16 mod 2 ^ 32, rs).
Definition LCGBI_bck (rs : Z) : Z * Z :=
  (shr rs 16 mod 2 ^ 32, Z.land (mulw 64 LAI ((rs - 11) mod 2 ^ 64)) (LM - 1)).
