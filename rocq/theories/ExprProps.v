(** C83: constraint expressions mean the same to the prover and to the recursive verifier, whatever is shared or cached. *)
From Verif Require Export ExprSpec.
From Verif Require Import ExprCircuit.
From Verif Require Field.
From Coq Require Import Znumtheory.
Open Scope Z_scope.

Definition unitF : values unit := {| v_bin _ _ _ := tt; v_neg _ := tt; v_int _ := tt |}.
Lemma unit_integers : integers unitF.
Proof. constructor; try reflexivity. Qed.
(** The evaluator without caches computes the value of every expression of every program over the builder. *)
Theorem C83_uncached : forall D (F : values D) (cs : list (api D)) env h, integers F -> build cs [] [] = Ok (env, h) ->
  forall i, eval (pure F) h (at_env env i) tt = Some (at_vals F (denote F (fun x => x) cs []) i, tt).
Proof.
  intros D F cs env h HF B i. destruct (build_vals F (fun x => x) HF cs env h B) as (vals & HV & HX).
  destruct (eval_ok F (fun x => x) (pure F) (fun _ _ => True) (fun _ v d => v = d) (pure_refines F) h vals HV (at_env env i) tt (at_vals F (denote F (fun x => x) cs []) i)) as (v & [] & E & _ & ->).
  - apply at_env_ok, HX.
  - intros p v _. reflexivity.
  - exact E.
Qed.
(** One cached evaluator computes the same values, for any sequence of expressions (with any repetitions and any sharing). *)
Theorem C83_cached : forall D (F : values D) (cs : list (api D)) env h, integers F -> build cs [] [] = Ok (env, h) ->
  forall is, exists st, eval_list (cached_eval (pure F) h) (map (at_env env) is) (no_cache tt) = Some (map (at_vals F (denote F (fun x => x) cs [])) is, st).
Proof.
  intros D F cs env h HF B is. destruct (build_vals F (fun x => x) HF cs env h B) as (vals & HV & HX).
  destruct (cached_list_ok F (fun x => x) (pure F) (fun _ _ => True) (fun _ v d => v = d) (pure_refines F) h vals HV (map (at_env env) is) (map (at_vals F (denote F (fun x => x) cs [])) is) (no_cache tt)) as (vs & st & E & _ & _ & R).
  - apply at_envs_ok, HX.
  - intros p v _. reflexivity.
  - apply no_cache_ok.
  - exists st. rewrite E. f_equal. f_equal. clear - R. induction R; congruence.
Qed.

(** ** The work of the cached evaluator *)
Lemma bin_op_size {V} op a b (h : list (node V)) e h' : bin_op op a b h = Ok (e, h') -> (length h' <= length h + 3)%nat.
Proof.
  destruct a as [ka|pa], b as [kb|pb]; cbn; try (destruct (i64_bin op ka kb); [|discriminate..]); intros [= <- <-]; rewrite ?app_length; cbn; lia.
Qed.
Lemma bin_op_size2 {V} op a b (h : list (node V)) e h' : bin_op op a b h = Ok (e, h') -> (length h' <= length h + 2)%nat.
Proof.
  destruct a as [ka|pa], b as [kb|pb]; cbn; try (destruct (i64_bin op ka kb); [|discriminate..]); intros [= <- <-]; rewrite ?app_length; cbn; lia.
Qed.
Lemma reduce_size {V} es base : forall (h : list (node V)) e h', reduce_with_powers es base h = Ok (e, h') -> (length h' <= length h + 4 * length es)%nat.
Proof.
  induction es as [|x es IH]; intros h e h' E; cbn [reduce_with_powers] in E; [injection E as _ <-; lia|].
  destruct (reduce_with_powers es base h) as [[e1 h1]| |] eqn:E1; try discriminate E. cbn [rbind fst snd] in E. destruct (bin_op EMul e1 (Basic base) h1) as [[e2 h2]| |] eqn:E2; try discriminate E. cbn [rbind fst snd] in E.
  apply IH in E1. apply bin_op_size2 in E2, E. cbn [length]. lia.
Qed.
Lemma sum_size {V} es : forall acc (h : list (node V)) e h', sum_from acc es h = Ok (e, h') -> (length h' <= length h + 4 * length es)%nat.
Proof.
  induction es as [|x es IH]; intros acc h e h' E; cbn [sum_from] in E; [injection E as _ <-; lia|].
  destruct (bin_op EAdd acc x h) as [[e1 h1]| |] eqn:E1; try discriminate E. cbn [rbind fst snd] in E. apply IH in E. apply bin_op_size2 in E1. cbn [length]. lia.
Qed.
Lemma call_size {V} (c : api V) env h e h' : call c env h = Ok (e, h') -> Z.of_nat (length h') <= Z.of_nat (length h) + 4 * operands c.
Proof.
  destruct c; cbn [call operands]; intros E.
  - injection E as <- <-. rewrite app_length. cbn. lia.
  - injection E as <- <-. rewrite app_length. cbn. lia.
  - injection E as <- <-. lia.
  - apply bin_op_size2 in E. lia.
  - destruct (at_env env i) as [k|p]; cbn in E; [destruct (i64_neg k); try discriminate E; injection E as <- <-; lia|]. injection E as <- <-. rewrite app_length. cbn. lia.
  - unfold is_binary in E. destruct (bin_op ESub _ _ h) as [[e1 h1]| |] eqn:E1; try discriminate E. cbn [rbind fst snd] in E. apply bin_op_size2 in E, E1. lia.
  - apply reduce_size in E. rewrite map_length in E. lia.
  - apply sum_size in E. rewrite map_length in E. lia.
Qed.
Lemma build_size {V} (cs : list (api V)) : forall env h env' h', build cs env h = Ok (env', h') -> Z.of_nat (length h') <= Z.of_nat (length h) + 4 * fold_right (fun c n => operands c + n) 0 cs.
Proof.
  induction cs as [|c cs IH]; intros env h env' h' E; cbn [build fold_right] in *; [injection E as _ <-; lia|].
  destruct (call c env h) as [[e1 h1]| |] eqn:C; try discriminate E. apply IH in E. apply call_size in C. cbn [fst snd] in *. lia.
Qed.
(** However often sub-expressions are shared, and whatever evaluator is inside the cache: the number of operations is linear in
    the number of operands of the program and of expressions evaluated. *)
Theorem C83_cached_work : forall S V (ev : evaluator S V) (cs : list (api V)) env h s es vs c, build cs [] [] = Ok (env, h) ->
  eval_list (cached_eval (counting ev) h) es (no_cache (0, s)) = Some (vs, c) ->
  fst (inside c) <= 4 * fold_right (fun c n => operands c + n) 0 cs + Z.of_nat (length es).
Proof.
  intros S V ev cs env h s es vs c B E.
  destruct (build_vals unitF (fun _ : V => tt) unit_integers cs env h B) as (vals & HV & _).
  apply vals_earlier in HV. pose proof (count_bound ev h HV es s vs c E) as C. apply build_size in B. cbn [length] in B. lia.
Qed.

(** * Circuits *)
(** Evaluating expressions over targets of a circuit adds gates to it, such that in every assignment that satisfies the circuit
    the resulting targets have the values of the expressions; and every assignment of the circuit before can be extended. *)
Theorem C83_circuit : forall (cs : list (api nat)) env h (k : list gate), build cs [] [] = Ok (env, h) -> Forall (fun t => (t < length k)%nat) (literals cs) ->
  forall is, exists ts st, eval_list (cached_eval circuit_ev h) (map (at_env env) is) (no_cache k) = Some (ts, st) /\
    k `prefix_of` inside st /\ Forall (fun t => (t < length (inside st))%nat) ts /\
    forall D (F : values D), integers F ->
      (forall w, satisfies F w (inside st) -> map w ts = map (at_vals F (denote F w cs [])) is) /\
      (forall w, closed_circuit k -> satisfies F w k -> exists w', (forall t, (t < length k)%nat -> w' t = w t) /\ satisfies F w' (inside st)).
Proof.
  intros cs env h k B L is.
  assert (G : forall D (F : values D) w, integers F -> exists ts st, eval_list (cached_eval circuit_ev h) (map (at_env env) is) (no_cache k) = Some (ts, st) /\ extends k (inside st) /\
     Forall (fun t => (t < length (inside st))%nat) ts /\ (satisfies F w (inside st) -> map w ts = map (at_vals F (denote F w cs [])) is)).
  { intros D F w HF. destruct (build_vals F w HF cs env h B) as (vals & HV & HX).
    destruct (cached_list_ok F w circuit_ev extends (Rc F w) (circuit_refines F HF w) h vals HV (map (at_env env) is) (map (at_vals F (denote F w cs [])) is) (no_cache k)) as (ts & st & E & X & _ & R).
    - apply at_envs_ok, HX.
    - intros p v E. split; [|reflexivity]. revert p v E. apply (only_build (fun t => (t < length k)%nat) cs [] [] env h); [intros p v E; discriminate E|exact L|exact B].
    - apply no_cache_ok.
    - exists ts, st. split; [exact E|]. split; [exact X|]. split.
      + clear - R. induction R as [|t d ts ds [H _] _ IH]; constructor; auto.
      + intros S. clear - R S. induction R as [|t d ts ds [_ H] _ IH]; cbn; [reflexivity|]. f_equal; auto. }
  destruct (G unit unitF (fun _ => tt)) as (ts & st & E & X & Lt & _); [exact unit_integers|].
  exists ts, st. split; [exact E|]. split; [apply X|]. split; [exact Lt|]. intros D F HF. split.
  - intros w S. destruct (G D F w HF) as (ts' & st' & E' & _ & _ & V). assert (ts' = ts /\ st' = st) as [-> ->] by (split; congruence). exact (V S).
  - intros w C S. exact (witness F w k (inside st) X C S).
Qed.

(** * Constraints *)
(** The prover's (and native verifier's) accumulators: for each challenge, all constraints -- evaluated and multiplied with
    the filter of their kind of row -- combined with powers of the challenge. *)
Theorem C83_packed : forall D (F : values D) (cs : list (api D)) env h (constraints : list (ctype * nat)) c, integers F -> build cs [] [] = Ok (env, h) ->
  length (accs c) = length (alphas c) ->
  exists c', build_packed F h (map (fun '(t, i) => (t, at_env env i)) constraints) c = Some c' /\
    accs c' = combined F c (map (fun '(t, i) => (t, at_vals F (denote F (fun x => x) cs []) i)) constraints).
Proof.
  intros D F cs env h l c HF B L. destruct (build_vals F (fun x => x) HF cs env h B) as (vals & HV & HX).
  set (ds := map (fun '(_, i) => at_vals F (denote F (fun x => x) cs []) i) l).
  eexists. split; [apply (packed_ok F h vals _ ds c HV)|].
  - unfold ds. clear - HX. induction l as [|[t i] l IH]; constructor; [|exact IH]. cbn [snd]. apply at_env_ok, HX.
  - rewrite consume_combined by exact L. f_equal. unfold ds. clear. induction l as [|[t i] l IH]; [reflexivity|]. cbn. f_equal. exact IH.
Qed.
(** The circuit of the recursive verifier computes the native verifier's accumulators: for the same program over the values of
    its targets, in every assignment that satisfies it. *)
Theorem C83_constraints_agree : forall (cs : list (api nat)) env h (constraints : list (ctype * nat)) c (k : list gate), build cs [] [] = Ok (env, h) ->
  Forall (fun t => (t < length k)%nat) (literals cs) -> consumer_in k c ->
  exists c' k', build_ext h (map (fun '(t, i) => (t, at_env env i)) constraints) c k = Some (c', k') /\ k `prefix_of` k' /\ consumer_in k' c' /\
    forall D (F : values D), integers F ->
      (forall w, satisfies F w k' -> exists h2, build (map (map_api w) cs) [] [] = Ok (env, h2) /\
         build_packed F h2 (map (fun '(t, i) => (t, at_env env i)) constraints) (map_consumer w c) = Some (map_consumer w c')) /\
      (forall w, closed_circuit k -> satisfies F w k -> exists w', (forall t, (t < length k)%nat -> w' t = w t) /\ satisfies F w' k').
Proof.
  intros cs env h l c k B L C. set (ccs := map (fun '(t, i) => (t, at_env env i)) l).
  assert (only (fun t => (t < length k)%nat) h) as ON by (apply (only_build (fun t => (t < length k)%nat) cs [] [] env h); [intros p v E; discriminate E|exact L|exact B]).
  assert (G : forall D (F : values D) w, integers F -> exists c' k', build_ext h ccs c k = Some (c', k') /\ extends k k' /\ consumer_in k' c' /\
     (satisfies F w k' -> exists h2, build (map (map_api w) cs) [] [] = Ok (env, h2) /\ build_packed F h2 ccs (map_consumer w c) = Some (map_consumer w c'))).
  { intros D F w HF. destruct (build_vals F w HF cs env h B) as (vals & HV & HX).
    set (ds := map (fun '(_, i) => at_vals F (denote F w cs []) i) l).
    assert (X : forall vals, Forall2 (expr_is F vals) env (denote F w cs []) -> Forall2 (fun te d => expr_is F vals (snd te) d) ccs ds).
    { intros vs H. unfold ccs, ds. clear - H. induction l as [|[t i] l IH]; constructor; [|exact IH]. cbn [snd]. apply at_env_ok, H. }
    destruct (build_ext_ok F HF w h vals HV ccs ds c k (X vals HX) ON C) as (c' & k' & E & EX & C' & V).
    exists c', k'. split; [exact E|]. split; [exact EX|]. split; [exact C'|]. intros S. rewrite (V S).
    pose proof (map_build w cs [] [] env h B) as B2. cbn [map] in B2. eexists. split; [exact B2|].
    destruct (build_vals F (fun x => x) HF _ _ _ B2) as (vals2 & HV2 & HX2). rewrite map_denote in HX2.
    rewrite (packed_ok F _ vals2 ccs ds (map_consumer w c) HV2 (X vals2 HX2)). reflexivity. }
  destruct (G unit unitF (fun _ => tt)) as (c' & k' & E & X & C' & _); [exact unit_integers|].
  exists c', k'. split; [exact E|]. split; [apply X|]. split; [exact C'|]. intros D F HF. split.
  - intros w S. destruct (G D F w HF) as (c2 & k2 & E2 & _ & _ & V). assert (c2 = c' /\ k2 = k') as [-> ->] by (split; congruence). exact (V S).
  - intros w CL S. exact (witness F w k k' X CL S).
Qed.

(** * The field *)
Theorem C83_field : integers goldilocks.
Proof.
  constructor; cbn [goldilocks v_int v_bin v_neg]; intros.
  - apply Zplus_mod.
  - apply Zminus_mod.
  - apply Zmult_mod.
  - rewrite <- (Z.sub_0_l (a mod Pr)), Zminus_mod_idemp_r. reflexivity.
  - rewrite Zmult_mod_idemp_l. reflexivity.
Qed.
(** [is_binary] vanishes on 0 and 1 only; [reduce_with_powers] is the sum of the terms with the powers of the base. *)
Theorem C83_is_binary : forall V (lit : V -> Z) i ds, 0 <= at_vals goldilocks ds i < Pr ->
  api_value goldilocks lit (AIsBinary i) ds = 0 <-> at_vals goldilocks ds i = 0 \/ at_vals goldilocks ds i = 1.
Proof.
  intros V lit i ds. cbn [api_value]. generalize (at_vals goldilocks ds i). intros x Hx. cbn [goldilocks v_bin v_int].
  replace ((x * ((1 mod Pr - x) mod Pr)) mod Pr) with ((x * (1 - x)) mod Pr).
  2: { rewrite Zminus_mod_idemp_l, Zmult_mod_idemp_r. reflexivity. }
  split.
  - intros E. apply Z.mod_divide in E; [|unfold Pr; lia]. apply (prime_mult Pr Field.P_prime) in E as [E|E]; apply Z.mod_divide in E; try (unfold Pr; lia).
    + left. rewrite Z.mod_small in E by exact Hx. exact E.
    + right. destruct (Z.eq_dec x 0) as [->|Nx]; [rewrite Z.mod_small in E by (unfold Pr; lia); lia|].
      assert (E2 : (x - 1) mod Pr = 0). { replace (x - 1) with (- (1 - x)) by ring. apply Z_mod_zero_opp_full, E. }
      rewrite Z.mod_small in E2 by lia. lia.
  - intros [-> | ->]; reflexivity.
Qed.
Theorem C83_reduce : forall V (lit : V -> Z) is base ds,
  api_value goldilocks lit (AReduce is base) ds = fold_right (fun '(j, x) acc => x * base ^ Z.of_nat j + acc) 0 (imap pair (map (at_vals goldilocks ds) is)) mod Pr.
Proof.
  intros V lit is base ds. cbn [api_value]. generalize (map (at_vals goldilocks ds) is). intros l.
  assert (G : forall s, fold_right (fun '(j, x) acc => x * base ^ Z.of_nat j + acc) 0 (imap (fun j x => ((j + s)%nat, x)) l) =
              base ^ Z.of_nat s * fold_right (fun x acc => acc * base + x) 0 l).
  { induction l as [|x l IH]; intros s; cbn [imap fold_right]; [lia|].
    rewrite (imap_ext _ (fun j x => ((j + Datatypes.S s)%nat, x))) by (intros j y _; cbn; f_equal; lia). rewrite IH. cbn [Nat.add]. rewrite Nat2Z.inj_succ, Z.pow_succ_r by lia. ring. }
  rewrite (imap_ext _ (fun j x => ((j + 0)%nat, x))) by (intros j y _; f_equal; lia). rewrite G. rewrite Z.mul_1_l. clear G.
  induction l as [|x l IH]; [reflexivity|]. cbn [fold_right]. rewrite IH. cbn [goldilocks v_bin v_int].
  rewrite <- Zmult_mod. rewrite Zplus_mod_idemp_l. reflexivity.
Qed.
(** Operations on two integer constants are carried out on i64 before any field is involved: beyond its range they panic (or
    wrap around, without overflow checks), although the sum is a field element. *)
Theorem C83_constants_overflow : build (V := Z) [AInt (2 ^ 63 - 1); AInt 1; ABin EAdd 0 1] [] [] = Panic POverflow.
Proof. reflexivity. Qed.

(** ** Concrete cases *)
(** a square chain: 2^10 - 1 operations without cache, 10 with it *)
Definition squares (n : nat) : list (api Z) := ALit 3 :: map (fun i => ABin EMul i i) (seq 0 n).
Example C83_squares :
  match build (squares 10) [] [] with
  | Ok (env, h) =>
      option_map snd (eval (counting (pure goldilocks)) h (at_env env 10) (0, tt)) = Some (1023, tt) /\
      option_map (fun r => inside (snd r)) (eval_list (cached_eval (counting (pure goldilocks)) h) [at_env env 10; at_env env 7] (no_cache (0, tt))) = Some (10, tt)
  | _ => False
  end.
Proof. vm_compute. auto. Qed.
(** two inputs, a shared product, a negation, constants, is_binary, reduce_with_powers and a sum, as four kinds of constraints *)
Definition demo_api : list (api nat) :=
  [ALit 0%nat; ALit 1%nat; ABin EMul 0 1; AInt 7; ABin ESub 3 2; ANeg 2; AIsBinary 0; AReduce [0; 1; 4]%nat 256; ASum [2; 5; 6]%nat; AConstant (-3); ABin EAdd 8 9].
Definition demo_constraints : list (ctype * nat) := [(Always, 6%nat); (FirstRow, 7%nat); (Transition, 10%nat); (LastRow, 4%nat); (Always, 3%nat)].
Definition demo_circuit : list gate := repeat GInput 7.
Definition demo_consumer : consumer nat := mkConsumer [2%nat] [3%nat] 4%nat 5%nat 6%nat.
Example C83_demo :
  match build demo_api [] [] with
  | Ok (env, h) => option_map (fun r => length (snd r)) (build_ext h (map (fun '(t, i) => (t, at_env env i)) demo_constraints) demo_consumer demo_circuit) = Some 43%nat
  | _ => False
  end.
Proof. vm_compute. reflexivity. Qed.
Example C83_demo_conditions : Forall (fun t => (t < length demo_circuit)%nat) (literals demo_api) /\ consumer_in demo_circuit demo_consumer /\
  closed_circuit demo_circuit /\ satisfies goldilocks (fun t => Z.of_nat t + 5) demo_circuit.
Proof.
  split; [repeat constructor; cbn; lia|]. split; [repeat constructor; cbn; lia|]. split; [repeat constructor|].
  intros i g E. apply elem_of_list_lookup_2, elem_of_list_In, repeat_spec in E. subst g. exact I.
Qed.
(** the values of the demo program on 5 and 6 *)
Example C83_demo_values : denote goldilocks (fun t => Z.of_nat t + 5) demo_api [] =
  [5; 6; 30; 7; Pr - 23; Pr - 30; Pr - 20; Pr + 5 + 6 * 256 - 23 * 65536; Pr - 20; Pr - 3; Pr - 23].
Proof. vm_compute. reflexivity. Qed.

Print Assumptions C83_uncached.
Print Assumptions C83_cached.
Print Assumptions C83_cached_work.
Print Assumptions C83_circuit.
Print Assumptions C83_packed.
Print Assumptions C83_constraints_agree.
Print Assumptions C83_field.
Print Assumptions C83_is_binary.
Print Assumptions C83_reduce.
Print Assumptions C83_constants_overflow.
