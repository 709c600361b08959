(** Model of the generation of the ADD, BLTU and register tables. *)
From Verif Require Export MemGenModel.
Open Scope Z_scope.

Definition exec_row : Type := state * instruction * aux.
(** a loop whose body may panic *)
Fixpoint collect_res {A B} (f : A -> res (list B)) (l : list A) : res (list B) :=
  match l with [] => Ok [] | x :: l' => r <-- f x ;; rest <-- collect_res f l' ;; Ok (r ++ rest) end.

(** ** ADD and BLTU tables (circuits/src/ops) *)
(** ops/add/mod.rs:151-179 generate; the panic is that of [u32::try_from(clk).unwrap()] *)
Definition generate_add_trace (rows : list exec_row) : res (list add_row) :=
  t <-- collect_res (fun '(s, i, a) => match iop i with
                                       | ADD => match gen_add_row s i a with Some r => Ok [r] | None => Panic POverflow end
                                       | _ => Ok [] end) rows ;;
  Ok (pad_with add_default t).
(** ops/blt_taken/mod.rs:142-173 generate: the row of one taken BLTU *)
Definition gen_blt_row (s : state) (i : instruction) : option blt_row :=
  if clk s <? 2 ^ 32
  then Some (mkBlt (pc s) (rs1 (iargs i)) (rs2 (iargs i)) (imm (iargs i)) (clk s) (freg s (rs1 (iargs i))) (freg s (rs2 (iargs i))) 1)
  else None.
Definition blt_default : blt_row := mkBlt 0 0 0 0 0 0 0 0.
Definition generate_blt_trace (rows : list exec_row) : res (list blt_row) :=
  t <-- collect_res (fun '(s, i, a) =>
          if (freg s (rs1 (iargs i)) <? freg s (rs2 (iargs i))) && match iop i with BLTU => true | _ => false end
          then match gen_blt_row s i with Some r => Ok [r] | None => Panic POverflow end else Ok []) rows ;;
  Ok (pad_with blt_default t).

(** ** Initial registers *)
(** register/generation.rs:155-172 generate_register_init_trace: x1 to x31 of the state before the first step; x31 comes
    twice because the 31 rows are padded to 32 with the last *)
Definition generate_reginit_trace (rec : record) : list reginit :=
  let first := match executed rec with [] => last_state rec | r :: _ => rstate r end in
  pad_last (mkRegInit 0 0) (map (fun k => mkRegInit (Z.of_nat k) (freg first (Z.of_nat k))) (seq 1 31)).

(** ** The register tables (circuits/src/register/generation.rs) *)
(** mozak_stark.rs:857-880 RegisterLookups, the looking tables in their order *)
Definition register_looking (cpus : list cpu) (adds : list add_row) (blts : list blt_row) (tapes : sd_op -> list sdrow)
  (sponge : list sprow) (init : list reginit) : entries :=
  cpu_reg_looking cpus ++ add_reg_looking adds ++ blt_reg_looking blts ++ all_sd_reg_looking tapes ++ sp_reg_looking sponge ++ reginit_looking init.
(** register/general/columns.rs:30-39 From<F> for Ops *)
Definition ops_from (o : Z) : res (Z * Z * Z) :=
  if o =? 0 then Ok (1, 0, 0) else if o =? 1 then Ok (0, 1, 0) else if o =? 2 then Ok (0, 0, 1) else Panic PAssert.
(** register/generation.rs:32-73 extract_raw, extract: the rows that a table looks up, those whose filter is 1 *)
Definition extract_row (e : list Z * Z) : res (list regrow) :=
  if snd e mod P =? 1 then
    match fst e with
    | [c; o; a; v] => ops <-- ops_from (o mod P) ;; let '(i, r, w) := ops in Ok [mkReg (a mod P) (v mod P) (c mod P) i r w]
    | _ => Panic PAssert
    end
  else Ok [].
(** register/generation.rs:19-30 sort_into_address_blocks: by address and augmented clock, as field elements *)
Definition reg_key_le (x y : regrow) : bool :=
  (g_addr x <? g_addr y) || ((g_addr x =? g_addr y) && (g_aug x mod P <=? g_aug y mod P)).
(** register/zero_read/columns.rs:22-29, register/zero_write/columns.rs:26-34 From<Register> *)
Definition zread_of (r : regrow) : zread := mkZRead (g_clk r) 1.
Definition zwrite_of (r : regrow) : zwrite := mkZWrite (g_clk r) (g_value r) 1.
(** register/generation.rs:87-153 generate_register_trace *)
Definition generate_register_trace (looking : entries) : res (list zread * list zwrite * list regrow) :=
  operations <-- collect_res extract_row looking ;;
  let trace := sort_by reg_key_le operations in
  let zeros := List.filter (fun r => g_addr r =? 0) trace in
  let general := List.filter (fun r => negb (g_addr r =? 0)) trace in
  match general with
  | [] => Panic PAssert
  | d :: _ =>
    let l := List.last general d in
    Ok (pad_with (mkZRead 0 0) (map zread_of (List.filter (fun r => g_write r =? 0) zeros)),
        pad_with (mkZWrite 0 0 0) (map zwrite_of (List.filter (fun r => negb (g_write r =? 0)) zeros)),
        pad_with (mkReg (g_addr l) (g_value l) (g_clk l) 0 0 0) general)
  end.
