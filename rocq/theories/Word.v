(** Machine words of the Rust code as integers.
    [u8/u32/u64] values are [Z]; each operation below models one Rust primitive operation
    (wrapping / casting) and nothing of the repository itself. *)
From Coq Require Export ZArith Lia List Bool.
From stdpp Require Export base list gmap numbers.
Open Scope Z_scope.

Definition u8 (z : Z) : Prop := 0 <= z < 256.
Definition u32 (z : Z) : Prop := 0 <= z < 4294967296.
Definition u64 (z : Z) : Prop := 0 <= z < 18446744073709551616.

(** [x as u32] / wrapping result of a u32 operation *)
Definition wrap32 (z : Z) : Z := z mod 4294967296.
(** [x as i32] for a u32 x *)
Definition as_i32 (z : Z) : Z := if z <? 2147483648 then z else z - 4294967296.
(** [x as i8] / [x as i16] for a u32 whose value is already below 2^8 / 2^16 *)
Definition as_i8 (z : Z) : Z := if z mod 256 <? 128 then z mod 256 else z mod 256 - 256.
Definition as_i16 (z : Z) : Z := if z mod 65536 <? 32768 then z mod 65536 else z mod 65536 - 65536.

Definition wadd (a b : Z) : Z := wrap32 (a + b).
Definition wsub (a b : Z) : Z := wrap32 (a - b).
Definition wmul (a b : Z) : Z := wrap32 (a * b).
Definition b2z (b : bool) : Z := if b then 1 else 0.

(** [x.to_le_bytes()] of a u32 and [u32::from_le_bytes] *)
Definition to_le_bytes32 (x : Z) : list Z :=
  [x mod 256; (x / 256) mod 256; (x / 65536) mod 256; (x / 16777216) mod 256].
Definition from_le_bytes32 (b0 b1 b2 b3 : Z) : Z :=
  b0 + 256 * b1 + 65536 * b2 + 16777216 * b3.

(** [x.to_le_bytes()] of a u64 *)
Fixpoint le_bytes (n : nat) (x : Z) : list Z :=
  match n with
  | O => []
  | S n' => x mod 256 :: le_bytes n' (x / 256)
  end.
Fixpoint from_le (l : list Z) : Z :=
  match l with
  | [] => 0
  | b :: r => b + 256 * from_le r
  end.

(** Outcome of a Rust function: value, [Err] or panic. *)
Inductive error :=
| ENoInstruction                          (* "Can't find instruction." *)
| EUnknownInstruction (pc word : Z)       (* DecodingError *)
| EElf (code : Z).                        (* ELF validation errors, numbered *)
Inductive panic :=
| PIndex                                  (* slice / array index out of bounds *)
| PReadOnly (addr : Z)                    (* store_u8(..).unwrap() on read-only memory *)
| POverflow                               (* arithmetic overflow with overflow checks on *)
| PGuest                                  (* ecall PANIC *)
| PUtf8                                   (* from_utf8(..).expect *)
| PAssert                                 (* failed assert! / expect / unwrap *)
| PMaxLoops                               (* debug_assert on MOZAK_MAX_LOOPS *)
| PFuel.                                  (* model only: fuel exhausted, i.e. run does not end in time *)
Inductive res (A : Type) :=
| Ok (a : A)
| Err (e : error)
| Panic (p : panic).
Arguments Ok {A} a.
Arguments Err {A} e.
Arguments Panic {A} p.

Definition rbind {A B} (m : res A) (k : A -> res B) : res B :=
  match m with Ok a => k a | Err e => Err e | Panic p => Panic p end.
Notation "x <-- m ;; k" := (rbind m (fun x => k)) (at level 100, m at next level, right associativity).
