(** Model of the SDK (sdk/src): digests, canonical events, the event merkle root, native and
    in-VM event/call/input tapes, identity stack, bump allocator, and the tape assembly of
    cli/src/runner.rs.
    The Poseidon2 sponge over bytes is a parameter [H] (list of bytes to 32 bytes); rkyv
    archives are modelled by the values they archive except where a [de] function is named. *)
From Verif Require Import Word.

(** Byte strings are [list Z]; a digest is the 32 bytes of Poseidon2Hash
    (sdk/src/common/types/poseidon2hash.rs:21-24), an address the 8 bytes of StateAddress
    (state_address.rs:4-25, STATE_TREE_DEPTH = 8), a ProgramIdentifier wraps a digest
    (program_identifier.rs:23). *)
Definition digest := list Z.
Definition address := list Z.
Definition progid := list Z.
Definition default_id : progid := repeat 0 32.

(** sdk/src/core/mod.rs:12-15 *)
Definition DIGEST_BYTES : nat := 32.
Definition RATE : nat := 8.

(** poseidon2hash.rs:46-62 Poseidon2Hash::from_u64s (copy loop = flattened array) *)
Definition from_u64s (v : list Z) : digest := flat_map (le_bytes 8) v.
(** poseidon2hash.rs:68-77 to_u64s: as_chunks of 8 bytes, u64::from_le_bytes each *)
Definition to_u64s (d : digest) : list Z :=
  map (fun i => from_le (take 8 (drop (8 * i) d))) (seq 0 4).

(** [usize::next_multiple_of] (std) *)
Definition next_multiple_of (n k : nat) : nat := ((n + k - 1) / k * k)%nat.
(** native/poseidon.rs:15-19 and mozakvm/poseidon.rs:11-15: the padding of
    poseidon2_hash_with_pad: push 1, resize with 0 to the next multiple of RATE *)
Definition pad (input : list Z) : list Z :=
  let p := input ++ [1] in
  p ++ repeat 0 (next_multiple_of (length p) RATE - length p).

(** event.rs:24-30 EventType (repr u8, derived Ord = discriminant order) *)
Definition Write : Z := 0.
Definition Ensure : Z := 1.
Definition Read : Z := 2.
Definition GiveOwner : Z := 3.
Definition TakeOwner : Z := 4.

(** event.rs:43-46 Event, state_object.rs:11-16 StateObject *)
Record event := Ev { ev_addr : address; ev_owner : progid; ev_data : list Z; ev_type : Z }.
(** event.rs:66-70 CanonicalEvent *)
Record cevent := CE { ce_addr : address; ce_type : Z; ce_value : digest }.

(** derived [Ord] of byte arrays: lexicographic *)
Fixpoint lex (a b : list Z) : comparison :=
  match a, b with
  | [], [] => Eq
  | [], _ :: _ => Lt
  | _ :: _, [] => Gt
  | x :: a', y :: b' => match Z.compare x y with Eq => lex a' b' | c => c end
  end.
(** event.rs:54,58 derived [Ord] of CanonicalEvent: fields in declaration order *)
Definition ce_cmp (x y : cevent) : comparison :=
  match lex (ce_addr x) (ce_addr y) with
  | Eq => match Z.compare (ce_type x) (ce_type y) with
          | Eq => lex (ce_value x) (ce_value y)
          | c => c
          end
  | c => c
  end.
(** derived [Ord] of the pair (CanonicalEvent, usize) *)
Definition cei_le (x y : cevent * nat) : bool :=
  match ce_cmp (fst x) (fst y) with Lt => true | Gt => false | Eq => (snd x <=? snd y)%nat end.
(** [Vec::sort] (eventtape.rs:54): a comparison sort for a total order; modelled by insertion
    sort, which yields the same list because the order is total and its keys are distinct *)
Fixpoint insert (x : cevent * nat) (l : list (cevent * nat)) : list (cevent * nat) :=
  match l with
  | [] => [x]
  | y :: r => if cei_le x y then x :: y :: r else y :: insert x r
  end.
Fixpoint sort (l : list (cevent * nat)) : list (cevent * nat) :=
  match l with [] => [] | x :: r => insert x (sort r) end.

(** [u64::leading_zeros] *)
Definition leading_zeros (x : Z) : Z := if x =? 0 then 64 else 63 - Z.log2 x.
(** merkle.rs:50 [u64::BITS - (left.0 ^ right.0).leading_zeros()] *)
Definition height_diff (a b : Z) : Z := 64 - leading_zeros (Z.lxor a b).
Definition U32_MAX : Z := 4294967295.

(** Result of running a loop of the code with [fuel] iterations. *)
Inductive outcome (A : Type) := Done (a : A) | Panicked | OutOfFuel.
Arguments Done {A}. Arguments Panicked {A}. Arguments OutOfFuel {A}.

Section Hash.
  (** Poseidon2 sponge over a byte string whose length is a multiple of RATE *)
  Variable H : list Z -> digest.

  (** native/poseidon.rs:14-30, mozakvm/poseidon.rs:11-25 poseidon2_hash_with_pad *)
  Definition hash_with_pad (input : list Z) : digest := H (pad input).
  (** native/poseidon.rs:40-53, mozakvm/poseidon.rs:33-39 poseidon2_hash_no_pad; the assertion
      holds at both call sites below (48 and 64 bytes) *)
  Definition hash_no_pad (input : list Z) : digest := H input.
  (** poseidon2hash.rs:80-87 two_to_one *)
  Definition two_to_one (l r : digest) : digest := hash_no_pad (l ++ r).

  (** event.rs:74-85 CanonicalEvent::from_event *)
  Definition from_event (e : event) : cevent :=
    CE (ev_addr e) (ev_type e) (hash_with_pad (ev_data e)).
  (** event.rs:88-97 CanonicalEvent::canonical_hash *)
  Definition canonical_hash (c : cevent) : digest :=
    hash_no_pad (le_bytes 8 (ce_type c) ++ ce_addr c ++ ce_value c).

  (** merkle.rs:29-55: the [while let Some(mut right) = e.remove()] loop. [left] has already been
      shifted; [items] are the entries not yet removed; [out] what was re-inserted so far.
      The vec_entries cursor (external crate) is modelled as "remove from the front of the rest,
      append to the finished part". [s] is the effective shift. *)
  Fixpoint step_loop (s : Z) (lft : Z * digest) (items out : list (Z * digest)) (nxt : Z)
    : list (Z * digest) * Z :=
    match items with
    | [] => (out ++ [lft], nxt)
    | right0 :: items' =>
        let rgt := (Z.shiftr (fst right0) s, snd right0) in
        if fst lft =? fst rgt then
          let out' := out ++ [(fst lft, two_to_one (snd lft) (snd rgt))] in
          match items' with
          | [] => (out', nxt)
          | next0 :: items'' =>
              let next := (Z.shiftr (fst next0) s, snd next0) in
              step_loop s next items'' out' (Z.min nxt (height_diff (fst lft) (fst next)))
          end
        else step_loop s rgt items' (out ++ [lft])
               (Z.min nxt (height_diff (fst lft) (fst rgt)))
    end.

  (** merkle.rs:22-64 merkleize_step. [checks] = overflow checks compiled in: then [>>= 64] or more
      panics ([None]); without them the shift amount is taken mod 64. *)
  Definition merkleize_step (checks : bool) (hs : list (Z * digest)) (height_incr : Z)
    : option (list (Z * digest) * Z) :=
    match hs with
    | [] => Some ([], U32_MAX)
    | lft :: rest =>
        if (64 <=? height_incr) && checks then None
        else let s := height_incr mod 64 in
             Some (step_loop s (Z.shiftr (fst lft) s, snd lft) rest [] U32_MAX)
    end.

  (** merkle.rs:11-18 merkleize; the [while] loop runs on [fuel] *)
  Fixpoint merkle_loop (checks : bool) (fuel : nat) (hs : list (Z * digest)) (height_incr : Z)
    : outcome digest :=
    match hs with
    | [] => Done default_id
    | [x] => Done (snd x)
    | _ =>
        match fuel with
        | O => OutOfFuel
        | S fuel' =>
            match merkleize_step checks hs height_incr with
            | None => Panicked
            | Some (hs', h') => merkle_loop checks fuel' hs' h'
            end
        end
    end.
  Definition merkleize (checks : bool) (fuel : nat) (hs : list (Z * digest)) : outcome digest :=
    merkle_loop checks fuel hs 0.

  (** eventtape.rs:20-22,25-41 OrderedEvents: the temporal list of (event, canonical event);
      [new] and repeated [push_temporal] build the same list *)
  Definition ordered_events := list (event * cevent).
  Definition push_temporal (o : ordered_events) (e : event) : ordered_events :=
    o ++ [(e, from_event e)].
  Definition ordered_new (es : list event) : ordered_events := map (fun e => (e, from_event e)) es.

  (** eventtape.rs:47-56 get_canonical_ordering *)
  Definition canonical_ordering (o : ordered_events) : list (cevent * nat) :=
    sort (map (fun p => (snd (fst p), snd p)) (combine o (seq 0 (length o)))).

  (** [u32::try_from(n).unwrap()] *)
  Definition u32_of (n : nat) : option nat := if Z.of_nat n <? 4294967296 then Some n else None.

  (** eventtape.rs:64-70 get_temporal_order_canonical_hints *)
  Definition temporal_order_canonical_hints (o : ordered_events) : option (list (event * nat)) :=
    mapM (fun p => i ← u32_of (snd (snd p)); Some (fst (fst p), i)) (combine o (canonical_ordering o)).

  (** eventtape.rs:80-89 reverse_ordering; an index out of bounds panics ([None]) *)
  Fixpoint reverse_loop (pos : list nat) (index : nat) (acc : list nat) : option (list nat) :=
    match pos with
    | [] => Some acc
    | p :: rest =>
        if (p <? length acc)%nat
        then (i ← u32_of index; reverse_loop rest (S index) (<[p := i]> acc))
        else None
    end.
  Definition reverse_ordering (pos : list nat) : option (list nat) :=
    reverse_loop pos 0 (repeat 0%nat (length pos)).

  (** eventtape.rs:79-106 get_canonical_order_temporal_hints *)
  Definition canonical_order_temporal_hints (o : ordered_events) : option (list (cevent * nat)) :=
    let c := canonical_ordering o in
    idxs ← mapM (fun p => u32_of (snd p)) c;
    rev ← reverse_ordering idxs;
    Some (map (fun p => (fst (fst p), snd p)) (combine c rev)).

  (** the (u64, hash) leaves built from canonical events: eventtape.rs:111-119,
      mozakvm/eventtape.rs:57-66, system.rs:223-236, cli/src/runner.rs:92-104 *)
  Definition leaf (c : cevent) : Z * digest := (from_le (ce_addr c), canonical_hash c).

  (** eventtape.rs:109-121 OrderedEvents::canonical_hash *)
  Definition ordered_canonical_hash (checks : bool) (fuel : nat) (o : ordered_events) : outcome digest :=
    merkleize checks fuel (map (fun p => leaf (fst p)) (canonical_ordering o)).

  (** mozakvm/eventtape.rs:11-16 EventTape in the VM; populated by system.rs:136-151 with
      [seen] all false and [index] 0 *)
  Record vm_events := VE { ve_reader : list (cevent * nat); ve_seen : list bool; ve_index : nat }.
  Definition populate_events (tape : list (cevent * nat)) : vm_events :=
    VE tape (repeat false (length tape)) 0.

  Definition bytes_eqb (a b : list Z) : bool := if decide (a = b) then true else false.
  Definition ce_eqb (a b : cevent) : bool :=
    bytes_eqb (ce_addr a) (ce_addr b) && (ce_type a =? ce_type b) && bytes_eqb (ce_value a) (ce_value b).

  (** mozakvm/eventtape.rs:25-43 emit; [None] is a panic (failed assert or index out of bounds) *)
  Definition vm_emit (t : vm_events) (e : event) : option vm_events :=
    if (ve_index t <? length (ve_reader t))%nat then
      '(_, elem_idx) ← ve_reader t !! ve_index t;
      seen ← ve_seen t !! elem_idx;
      if negb seen then
        '(ce, _) ← ve_reader t !! elem_idx;
        if ce_eqb ce (from_event e)
        then Some (VE (ve_reader t) (<[elem_idx := true]> (ve_seen t)) (S (ve_index t)))
        else None
      else None
    else None.
  Fixpoint vm_emits (t : vm_events) (es : list event) : option vm_events :=
    match es with [] => Some t | e :: r => t' ← vm_emit t e; vm_emits t' r end.

  (** cross_program_call.rs:11-16 CrossProgramCall (argument/return as raw bytes) *)
  Record cpc := CPC { caller : progid; callee : progid; argument : list Z; return_ : list Z }.

  (** mozakvm/calltape.rs:9-14 CallTape in the VM *)
  Record vm_calls := VC { vc_cast : list progid; vc_self : progid; vc_reader : list cpc; vc_index : nat }.

  (** [BTreeSet] collect then iterate (system.rs:109-118, cli/src/runner.rs:75-82): sorted, without
      duplicates *)
  Fixpoint set_insert (x : list Z) (l : list (list Z)) : list (list Z) :=
    match l with
    | [] => [x]
    | y :: r => match lex x y with Lt => x :: y :: r | Eq => y :: r | Gt => y :: set_insert x r end
    end.
  Definition btree_set (l : list (list Z)) : list (list Z) := fold_left (fun s x => set_insert x s) l [].

  (** system.rs:100-126 populate_call_tape *)
  Definition cast_list (tape : list cpc) : list progid := btree_set (map callee tape).
  Definition populate_calls (self : progid) (tape : list cpc) : vm_calls :=
    VC (cast_list tape) self tape 0.

  (** mozakvm/calltape.rs:18-20 is_casted_actor *)
  Definition is_casted_actor (t : vm_calls) (a : progid) : bool :=
    bytes_eqb default_id a || existsb (bytes_eqb a) (vc_cast t).

  (** mozakvm/calltape.rs:30-76 send. [V] is the argument/return type, [deA]/[deR] rkyv
      access_unchecked + deserialize, [eqb] its PartialEq. [None] = panic. *)
  Definition vm_send {V} (eqb : V -> V -> bool) (deA deR : list Z -> V)
      (t : vm_calls) (recipient : progid) (arg : V) : option (V * vm_calls) :=
    if (vc_index t <? length (vc_reader t))%nat then
      m ← vc_reader t !! vc_index t;
      if bytes_eqb (caller m) (vc_self t) && bytes_eqb (callee m) recipient
         && is_casted_actor t recipient && eqb (deA (argument m)) arg
      then Some (deR (return_ m), VC (vc_cast t) (vc_self t) (vc_reader t) (S (vc_index t)))
      else None
    else None.

  (** mozakvm/calltape.rs:88-128: the receive loop; runs over the rest of the tape, so it is
      given as recursion on the remaining messages *)
  Fixpoint recv_loop {V} (deA deR : list Z -> V) (t : vm_calls) (rest : list cpc) (idx : nat)
    : option (option (progid * V * V) * nat) :=
    match rest with
    | [] => Some (None, idx)
    | m :: rest' =>
        if bytes_eqb (vc_self t) (callee m) then
          if negb (bytes_eqb (caller m) (vc_self t)) && is_casted_actor t (caller m)
          then Some (Some (caller m, deA (argument m), deR (return_ m)), S idx)
          else None
        else recv_loop deA deR t rest' (S idx)
    end.
  (** mozakvm/calltape.rs:79-129 receive *)
  Definition vm_receive {V} (deA deR : list Z -> V) (t : vm_calls)
    : option (option (progid * V * V) * vm_calls) :=
    '(r, idx) ← recv_loop deA deR t (drop (vc_index t) (vc_reader t)) (vc_index t);
    Some (r, VC (vc_cast t) (vc_self t) (vc_reader t) idx).

  (** system.rs:248-255, cli/src/runner.rs:108-109: leaves of the cast-list commitment *)
  Definition cast_leaves (cl : list progid) : list (Z * digest) :=
    combine (map Z.of_nat (seq 0 (length cl))) cl.

  (** system.rs:198-259 ensure_clean_shutdown; [claimed_ev], [claimed_cl] are the bytes read from the
      two commitment tapes *)
  Definition ensure_clean_shutdown (checks : bool) (fuel : nat) (c : vm_calls) (e : vm_events)
      (claimed_ev claimed_cl : digest) : bool :=
    (vc_index c =? length (vc_reader c))%nat
    && (ve_index e =? length (ve_reader e))%nat
    && match merkleize checks fuel (map (fun p => leaf (fst p)) (ve_reader e)) with
       | Done d => bytes_eqb claimed_ev d | _ => false end
    && match merkleize checks fuel (cast_leaves (vc_cast c)) with
       | Done d => bytes_eqb claimed_cl d | _ => false end.

  (** native/identity.rs:6-15 IdentityStack: bottom first *)
  Definition add_identity (st : list progid) (id : progid) : list progid := st ++ [id].
  Definition top_identity (st : list progid) : progid := List.last st default_id.
  Definition rm_identity (st : list progid) : list progid := take (length st - 1) st.

  (** What a native program does: the SDK calls it makes, [ACall] carrying what the resolver
      itself did and the serialized argument and return value. *)
  Inductive action :=
  | ACall (recipient : progid) (arg : list Z) (body : list action) (ret : list Z)
  | AEmit (e : event)
  | AInput (public : bool) (bytes : list Z).

  (** system_tape.rs:17-22 native SystemTape; the four tapes share one identity stack
      (system.rs:33-55). HashMaps are association by [gmap]. *)
  Record native := NS {
    n_stack : list progid;
    n_calls : list cpc;
    n_events : gmap progid ordered_events;
    n_private : gmap progid (list Z);
    n_public : gmap progid (list Z) }.
  Definition native_init : native := NS [] [] ∅ ∅ ∅.

  (** native/eventtape.rs:148-153 emit; None = the assert_ne fails *)
  Definition native_emit (s : native) (e : event) : option native :=
    let id := top_identity (n_stack s) in
    if bytes_eqb id default_id then None
    else Some (NS (n_stack s) (n_calls s)
                 (<[id := push_temporal (default [] (n_events s !! id)) e]> (n_events s))
                 (n_private s) (n_public s)).
  (** native/inputtape.rs:35-42 write *)
  Definition native_write (s : native) (public : bool) (b : list Z) : option native :=
    let id := top_identity (n_stack s) in
    if bytes_eqb id default_id then None
    else Some (if public
               then NS (n_stack s) (n_calls s) (n_events s) (n_private s)
                      (<[id := default [] (n_public s !! id) ++ b]> (n_public s))
               else NS (n_stack s) (n_calls s) (n_events s)
                      (<[id := default [] (n_private s !! id) ++ b]> (n_private s)) (n_public s)).
  (** native/calltape.rs:45-58 [send] up to the resolver: push the skeletal message and the
      identity *)
  Definition send_begin (s : native) (recipient : progid) (arg : list Z) : native :=
    NS (add_identity (n_stack s) recipient)
       (n_calls s ++ [CPC (top_identity (n_stack s)) recipient arg []])
       (n_events s) (n_private s) (n_public s).
  (** native/calltape.rs:63-65 [send] after the resolver: fill the return value at the remembered
      index (out of bounds panics), pop the identity *)
  Definition send_end (s : native) (inserted_idx : nat) (ret : list Z) : option native :=
    m ← n_calls s !! inserted_idx;
    Some (NS (rm_identity (n_stack s))
            (<[inserted_idx := CPC (caller m) (callee m) (argument m) ret]> (n_calls s))
            (n_events s) (n_private s) (n_public s)).
  (** native/calltape.rs:33-68 send, native/eventtape.rs emit, native/inputtape.rs write, over
      the whole tree of actions *)
  Fixpoint native_exec (s : native) (a : action) {struct a} : option native :=
    match a with
    | ACall recipient arg body ret =>
        let fix go (s : native) (l : list action) : option native :=
          match l with [] => Some s | x :: r => s' ← native_exec s x; go s' r end in
        let inserted_idx := length (n_calls s) in
        s1 ← go (send_begin s recipient arg) body;
        send_end s1 inserted_idx ret
    | AEmit e => native_emit s e
    | AInput public b => native_write s public b
    end.
  Fixpoint native_run (s : native) (l : list action) : option native :=
    match l with [] => Some s | x :: r => s' ← native_exec s x; native_run s' r end.

  (** cli/src/runner.rs:47-63 length_prefixed_bytes; the [expect] fails from 2^32 bytes on *)
  Definition length_prefixed_bytes (data : list Z) : option (list Z) :=
    if Z.of_nat (length data) <? 4294967296
    then Some (le_bytes 4 (Z.of_nat (length data)) ++ data) else None.

  (** cli/src/runner.rs:65-148 raw_tapes_from_system_tape, without the byte serialisation of the call
      and event tapes (rkyv) *)
  Record raw_tapes := RT {
    rt_private : list Z; rt_public : list Z; rt_call : list cpc; rt_event : list (cevent * nat);
    rt_self : progid; rt_events_commitment : digest; rt_cast_commitment : digest }.
  Definition raw_tapes_from_system_tape (checks : bool) (fuel : nat) (sys : native) (self : progid)
    : option raw_tapes :=
    hints ← canonical_order_temporal_hints (default [] (n_events sys !! self));
    ev ← match merkleize checks fuel (map (fun p => leaf (fst p)) hints) with Done d => Some d | _ => None end;
    cl ← match merkleize checks fuel (cast_leaves (cast_list (n_calls sys))) with Done d => Some d | _ => None end;
    priv ← length_prefixed_bytes (default [] (n_private sys !! self));
    pub ← length_prefixed_bytes (default [] (n_public sys !! self));
    Some (RT priv pub (n_calls sys) hints self ev cl).
End Hash.

(** sdk/src/mozakvm/inputtape.rs:6-17 RandomAccessEcallTape; [tape] holds the bytes the ecall has not
    delivered yet (the VM side of the io tape, runner/src/system/ecall.rs, delivers the next bytes;
    fewer remaining bytes than requested is not modelled: see [ecall_read]). *)
Record input_tape := IT { it_offset : Z; it_size_hint : Z; it_buf : list Z; it_rest : list Z }.
(** the ecall: copies [n] bytes of the tape to the buffer. Beyond the end of the tape the VM
    copies what is left and the buffer keeps its zeros. *)
Definition ecall_read (rest : list Z) (n : nat) : list Z * list Z :=
  let got := take n rest in (got ++ repeat 0 (n - length got), drop n rest).
(** inputtape.rs:25-72 read into a buffer of [required] bytes. Result: Ok(serviced bytes) and the new
    contents of the buffer. usize is 32 bits; subtraction underflow is a panic with overflow
    checks, and without them the following slice index / clone_from_slice panics as well, so both
    are [None]. *)
Definition it_read (t : input_tape) (required : Z) : option (Z * list Z * input_tape) :=
  let serviced := if it_size_hint t <? it_offset t + required
                  then it_size_hint t - it_offset t else required in
  let buflen := Z.of_nat (length (it_buf t)) in
  let avail := buflen - it_offset t in
  let from_buf := if serviced <? avail then serviced else avail in
  let from_ecall := serviced - from_buf in
  if (serviced <? 0) || (avail <? 0) || (from_ecall <? 0) then None
  else
    let part1 := take (Z.to_nat from_buf) (drop (Z.to_nat (it_offset t)) (it_buf t)) in
    let '(got, rest') := ecall_read (it_rest t) (Z.to_nat from_ecall) in
    let buf' := it_buf t ++ got in
    (* inputtape.rs:68: clone_from_slice panics unless the lengths agree *)
    if (required - from_buf =? from_ecall)
    then Some (serviced, part1 ++ got, IT (it_offset t + serviced) (it_size_hint t) buf' rest')
    else None.
(** inputtape.rs:78-103 seek; SeekFrom::Start(x) with x : u64, End/Current with x : i64.
    usize::try_from of a negative number panics. *)
Inductive seek_from := SeekStart (x : Z) | SeekEnd (x : Z) | SeekCurrent (x : Z).
Definition it_seek (t : input_tape) (pos : seek_from) : option input_tape :=
  let set o := if o <? 0 then None else Some (IT o (it_size_hint t) (it_buf t) (it_rest t)) in
  match pos with
  | SeekStart x => if it_size_hint t <=? x then set (it_size_hint t - 1) else set x
  | SeekEnd x => if it_size_hint t <=? x then set 0
                 else if x <? 0 then None else set (it_size_hint t - x - 1)
  | SeekCurrent x => if it_size_hint t <=? x + it_offset t then set (it_size_hint t - 1)
                     else if x <? 0 then None else set (it_offset t + x)
  end.

(** sdk/src/core/alloc.rs:4-36 alloc_aligned: [heap_pos] is HEAP_POS, [end_] the linker symbol.
    [align] is a power of two (Layout). Addition is on 32-bit usize: an overflow panics with overflow
    checks and wraps without them (the mozak-release profile of guest programs). Result: the pointer
    and the new HEAP_POS. *)
Definition add_usize (checks : bool) (a b : Z) : option Z :=
  if a + b <? 4294967296 then Some (a + b) else if checks then None else Some (wrap32 (a + b)).
Definition alloc_aligned (checks : bool) (end_ heap_pos bytes align : Z) : option (Z * Z) :=
  let heap_pos := if heap_pos =? 0 then end_ else heap_pos in
  let offset := Z.land heap_pos (align - 1) in
  heap_pos ← (if offset =? 0 then Some heap_pos else add_usize checks heap_pos (align - offset));
  next ← add_usize checks heap_pos bytes;
  Some (heap_pos, next).
