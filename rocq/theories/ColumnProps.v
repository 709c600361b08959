(** C84: linear combinations of columns mean what is written, wherever they are evaluated. *)
From stdpp Require Import list.
From Coq Require Import ZArith Lia Ring_theory.
From Verif Require Import Word ExprModel ExprSpec ExprCircuit ColumnModel ColumnSpec ColumnProofs ColumnBound.
Open Scope Z_scope.

(** The cells used by the circuits are such rings: the field, and its quadratic extension. *)
Theorem C84_cells : ring_cells gl_cells /\ ring_cells gl2_cells.
Proof. split; [exact gl_ring|exact gl2_ring]. Qed.
Example C84_cells_ex : gv (r_add gl_cells (mk (Pr - 1)) (mk 3)) = 2 /\ r_mul gl2_cells (mk 0, mk 1) (mk 0, mk 1) = (mk 7, mk 0).
Proof. split; [reflexivity|]. cbn. f_equal; apply gl_eq; reflexivity. Qed.

(** A sparse column has one value on a pair of rows -- the sum of its terms and its constant -- and every way to evaluate it yields that
    value: on two rows of openings, on a row of a table in column-major form (the row after the last is the first), and in a circuit, in
    every satisfying assignment; no evaluation panics, and the circuit has a satisfying assignment whenever it had one before. *)
Theorem C84_evaluation : forall R (F : cells R), ring_cells F -> forall n (c : sparse Z), within n c ->
  (forall lv nv, length lv = n -> length nv = n -> eval_row F c lv nv = Ok (column_value F (r_int F) c lv nv)) /\
  (forall table ht r, is_table n ht table -> (r < ht)%nat -> exists c', to_field F c = Ok c' /\
     eval_table F c' table r = Ok (column_value F (r_int F) c (row_of F table r) (row_of F table ((r + 1) mod ht)))) /\
  (forall lv nv k, length lv = n -> length nv = n -> Forall (fun t => (t < length k)%nat) lv -> Forall (fun t => (t < length k)%nat) nv ->
     exists t k', eval_circuit c lv nv k = Ok (t, k') /\ k `prefix_of` k' /\ (t < length k')%nat /\
       (forall w, satisfies (cell_values F) w k' -> w t = column_value F (r_int F) c (map w lv) (map w nv)) /\
       (forall w, closed_circuit k -> satisfies (cell_values F) w k -> exists w', (forall i, (i < length k)%nat -> w' i = w i) /\ satisfies (cell_values F) w' k')).
Proof.
  intros R F HF n c W. split; [|split].
  - intros lv nv L1 L2. eapply eval_row_value; eassumption.
  - intros table ht r HT Lr. destruct (to_field_value F c) as (c' & E & W' & V). exists c'. split; [exact E|].
    rewrite (eval_table_value F HF c' table n ht r (W' _ W) HT Lr), V. reflexivity.
  - intros lv nv k L1 L2 B1 B2. destruct (eval_circuit_ok F HF c lv nv n k W L1 L2 B1 B2) as (t & k' & E & X & L & V).
    exists t, k'. split; [exact E|]. split; [apply X|]. split; [exact L|]. split; [exact V|]. intros w C S. eapply witness; eassumption.
Qed.

(** A program over typed columns: every result, translated to its sparse form, evaluates to the value of the written expression. *)
Theorem C84_typed : forall R (F : cells R), ring_cells F -> forall n p cs, t_run n p [] = Ok cs ->
  length cs = length (t_denote F p []) /\
  forall i c d, cs !! i = Some c -> t_denote F p [] !! i = Some d ->
    within n (from_typed c) /\
    forall lv nv, length lv = n -> length nv = n -> eval_row F (from_typed c) lv nv = Ok (d lv nv) /\ column_value F (r_int F) (from_typed c) lv nv = d lv nv.
Proof.
  intros R F HF n p cs E. pose proof (shaped_run n p [] cs ltac:(constructor) E) as Sh. split.
  - eapply Forall2_length. apply (t_run_means F HF n p [] [] cs (repeat (r_0 F) n) (repeat (r_0 F) n)); rewrite ?repeat_length; auto.
  - intros i c d Ec Ed. assert (W : within n (from_typed c)). { apply shaped_within. rewrite List.Forall_forall in Sh. apply Sh, elem_of_list_In, (elem_of_list_lookup_2 _ i), Ec. }
    split; [exact W|]. intros lv nv L1 L2. rewrite (eval_row_value F HF _ lv nv n W L1 L2).
    assert (V : column_value F (r_int F) (from_typed c) lv nv = d lv nv).
    { rewrite (from_typed_value F HF). pose proof (t_run_means F HF n p [] [] cs lv nv L1 L2 ltac:(constructor) ltac:(constructor) E) as H.
      destruct (Forall2_lookup_l _ _ _ _ _ H Ec) as (d' & Ed' & V). rewrite Ed in Ed'. injection Ed' as <-. exact V. }
    split; [f_equal; exact V|exact V].
Qed.

(** No operation of a program panics if the sizes of the coefficients, added up, stay within i64. *)
Theorem C84_no_overflow : forall n p, Forall (fun b => b < 2 ^ 63) (t_bounds p []) -> exists cs, t_run n p [] = Ok cs.
Proof. intros n p H. destruct (sized_run n p [] [] ltac:(constructor) H) as (cs & E & _). eauto. Qed.

(** Operations on sparse columns, with integer coefficients or with coefficients in the field (or extension). *)
Theorem C84_sparse : forall R (F : cells R), ring_cells F ->
  (forall p cs cs' lv nv, s_run num_i64 p cs = Ok cs' ->
     map (fun c => column_value F (r_int F) c lv nv) cs' = map (fun d => d lv nv) (s_denote F (r_int F) p (map (column_value F (r_int F)) cs))) /\
  (forall p cs cs' lv nv, s_run (num_cells F) p cs = Ok cs' ->
     map (fun c => column_value F (fun x => x) c lv nv) cs' = map (fun d => d lv nv) (s_denote F (fun x => x) p (map (column_value F (fun x => x)) cs))).
Proof.
  intros R F HF. assert (G : forall T (h : T -> R) lv nv cs' ds, Forall2 (fun c (d : list R -> list R -> R) => column_value F h c lv nv = d lv nv) cs' ds -> map (fun c => column_value F h c lv nv) cs' = map (fun d => d lv nv) ds).
  { intros T h lv nv cs' ds H. induction H; cbn; congruence. }
  assert (I : forall T (h : T -> R) lv nv cs, Forall2 (fun c (d : list R -> list R -> R) => column_value F h c lv nv = d lv nv) cs (map (column_value F h) cs)).
  { intros T h lv nv cs. induction cs; cbn; constructor; auto. }
  split; intros p cs cs' lv nv E; apply G.
  - apply (s_run_means F HF num_i64 (r_int F) (rc_0 F HF)) with (cs := cs); auto; cbn; intros.
    + apply i64_inv in H as ->. apply (rc_add F HF).
    + apply i64_inv in H as ->. apply (rc_mul F HF).
    + apply i64_inv in H as ->. apply (rc_neg F HF).
  - apply (s_run_means F HF (num_cells F) (fun x => x) eq_refl) with (cs := cs); auto; cbn; intros; congruence.
Qed.

(** What the prover computes of a row with the composed linear map is what the verifier computes from the openings of the two rows:
    the multiplicity, and the tuple compressed with the powers of beta, plus gamma. *)
Theorem C84_composed : forall R (F : cells R), ring_cells F -> forall beta gamma t n ht trace r,
  Forall (within n) (ts_columns t) -> within n (ts_filter t) -> is_table n ht trace -> (r < ht)%nat ->
  let lv := row_of F trace r in let nv := row_of F trace ((r + 1) mod ht) in
  let tuple := map (fun c => column_value F (r_int F) c lv nv) (ts_columns t) in
  let value := (r_add F (powers_total F beta tuple) gamma, column_value F (r_int F) (ts_filter t) lv nv) in
  prover_row F beta gamma t trace r = Ok value /\ verifier_row F beta gamma t lv nv = Ok value.
Proof.
  intros R F HF beta gamma t n ht trace r Wc Wf HT Lr lv nv tuple value.
  assert (Ll : length lv = n) by (unfold lv; rewrite row_of_length; apply HT). assert (Ln : length nv = n) by (unfold nv; rewrite row_of_length; apply HT). split.
  - unfold prover_row. destruct (to_field_value F (ts_filter t)) as (f & -> & Wf' & Vf). cbn [rbind].
    destruct (to_fields F (ts_columns t)) as (cols & -> & Wcols & Vcols). cbn [rbind].
    destruct (compose_cells F n cols beta gamma (Wcols n Wc)) as (c & Ec & Wc'). rewrite Ec. cbn [rbind].
    rewrite (eval_table_value F HF f trace n ht r (Wf' _ Wf) HT Lr). cbn [rbind]. rewrite (eval_table_value F HF c trace n ht r Wc' HT Lr). cbn [rbind].
    fold lv nv. rewrite Vf. unfold value, tuple. rewrite <- Vcols.
    rewrite (compose_value F HF (num_cells F) (fun x => x) eq_refl) with (beta := beta) (gamma := gamma) (cols := cols); [reflexivity|..|exact Ec]; cbn; congruence.
  - unfold verifier_row. rewrite (map_res_ok _ (fun c => column_value F (r_int F) c lv nv)); cycle 1.
    { revert Wc. apply List.Forall_impl. intros c W. eapply eval_row_value; eassumption. }
    cbn [rbind]. rewrite (eval_row_value F HF _ lv nv n Wf Ll Ln). cbn [rbind]. unfold value. rewrite r_reduce_powers by exact HF. reflexivity.
Qed.

(** The table on the other side of a lookup: the same tuples with the opposite multiplicities. *)
Theorem C84_negated : forall R (F : cells R), ring_cells F -> forall t t', table_neg t = Ok t' ->
  ts_columns t' = ts_columns t /\ forall lv nv, column_value F (r_int F) (ts_filter t') lv nv = r_neg F (column_value F (r_int F) (ts_filter t) lv nv).
Proof.
  intros R F HF t t' E. unfold table_neg in E. obind E. injection E as <-. split; [reflexivity|]. intros lv nv. cbn [ts_filter].
  apply (cv_neg F HF num_i64 (r_int F)); [cbn; intros|exact E0]. apply i64_inv in H as ->. apply (rc_neg F HF).
Qed.

(** ** Examples *)
(** The range check of the memory table (circuits/src/memory/columns.rs:183): addr.diff() - is_init.flip(), over a table with the columns
    addr and is_init; and the combination of an instruction into one cell (circuits/src/cpu/columns.rs:449-460) over 40 columns. *)
Definition memory_program : list tcall := [TCol 0; TCol 1; TDiff 0; TFlip 1; TSub 2 3].
Definition rom_program : list tcall := map TCol (seq 0 40) ++ [TAscending (seq 0 31); TReduce [40; 31; 32; 33; 34; 35; 36] 32]%nat.
Example C84_typed_ex : match t_run 2 memory_program [] with
  | Ok cs => exists c, cs !! 4%nat = Some c /\ c = mkTyped [-1; 0] [1; -1] 0 /\
      from_typed c = mkSparse [(0%nat, -1)] [(0%nat, 1); (1%nat, -1)] 0
  | _ => False end.
Proof. vm_compute. eexists. split; [reflexivity|]. split; reflexivity. Qed.
Example C84_no_overflow_ex : Forall (fun b => b < 2 ^ 63) (t_bounds rom_program []) /\ nth 41 (t_bounds rom_program []) 0 = 465 + 32 + 32^2 + 32^3 + 32^4 + 32^5 + 32^6.
Proof. split; [|vm_compute; reflexivity]. apply List.Forall_forall. assert (H : forallb (fun b => b <? 2 ^ 63) (t_bounds rom_program []) = true) by (vm_compute; reflexivity).
  intros b I. rewrite forallb_forall in H. apply Z.ltb_lt, H, I. Qed.
Example C84_overflow_ex : t_run 1 [TCol 0; TMulInt 0 (2 ^ 62); TAdd 1 1]%nat [] = Panic PAssert.
Proof. vm_compute. reflexivity. Qed.
Example C84_sparse_ex : s_run num_i64 [SNeg 1; SAdd 0 2; SSum [0; 1; 3]]%nat [mkSparse [(3%nat, 5); (0%nat, 1)] [] 7; mkSparse [(3%nat, 5); (1%nat, 2)] [(2%nat, 1)] 4] =
  Ok [mkSparse [(3%nat, 5); (0%nat, 1)] [] 7; mkSparse [(3%nat, 5); (1%nat, 2)] [(2%nat, 1)] 4;
      mkSparse [(3%nat, -5); (1%nat, -2)] [(2%nat, -1)] (-4); mkSparse [(0%nat, 1); (1%nat, -2); (3%nat, 0)] [(2%nat, -1)] 3;
      mkSparse [(0%nat, 2); (1%nat, 0); (3%nat, 10)] [(2%nat, 0)] 14].
Proof. vm_compute. reflexivity. Qed.
Definition memory_table : table_spec := mkTableSpec [mkSparse [(0%nat, -1)] [(0%nat, 1); (1%nat, -1)] 0; mkSparse [(1%nat, 1)] [] 3] (mkSparse [] [(1%nat, -1)] 1).
Example C84_composed_ex : Forall (within 2) (ts_columns memory_table) /\ within 2 (ts_filter memory_table) /\ is_table 2 3 [map mk [4; 4; 9]; map mk [1; 0; 1]] /\
  match prover_row gl_cells (mk 10) (mk 1000) memory_table [map mk [4; 4; 9]; map mk [1; 0; 1]] 1 with
  | Ok (d, m) => gv d = 4 + 3 * 10 + 1000 /\ gv m = 0 | _ => False end.
Proof. repeat split; repeat constructor; vm_compute; lia. Qed.
Example C84_negated_ex : table_neg memory_table = Ok (mkTableSpec (ts_columns memory_table) (mkSparse [] [(1%nat, 1)] (-1))).
Proof. vm_compute. reflexivity. Qed.
(** The order of the columns does not matter to the value, but the sum of two columns in sparse form is sorted: equal columns need not be
    equal as data after arithmetic. *)
Example C84_evaluation_ex : match eval_circuit (mkSparse [(0%nat, 3)] [(1%nat, -1)] 5) [0; 1]%nat [2; 3]%nat [GInput; GInput; GInput; GInput] with
  | Ok (t, k) => t = 8%nat /\ k = [GInput; GInput; GInput; GInput; GConst 3; GConst (-1); GConst 5; GMulAdd 0 4 6; GMulAdd 3 5 7] | _ => False end.
Proof. vm_compute. split; reflexivity. Qed.

Print Assumptions C84_cells.
Print Assumptions C84_evaluation.
Print Assumptions C84_typed.
Print Assumptions C84_no_overflow.
Print Assumptions C84_sparse.
Print Assumptions C84_composed.
Print Assumptions C84_negated.
