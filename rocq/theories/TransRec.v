(** The challenger of the recursive verifier, which absorbs lazily: plonky2's RecursiveChallenger
    (used in circuits/src/stark/recursive_verifier.rs:330-424 and circuits/src/stark/proof.rs:135-190). *)
From Verif Require Export TransModel.
Open Scope nat_scope.

Section Recursive.
  Context {A : Type} (perm : list A -> list A).
  (** absorb_buffered_inputs: pieces of RATE elements overwrite the beginning of the state, each followed by the permutation *)
  Fixpoint absorb_pieces (fuel : nat) (s inp : list A) : list A :=
    match fuel with
    | O => s
    | S n => match inp with [] => s | _ => absorb_pieces n (perm (firstn RATE inp ++ skipn (length (firstn RATE inp)) s)) (skipn RATE inp) end
    end.
  Definition absorb (c : challenger A) : challenger A :=
    match input c with [] => c | _ => let s := absorb_pieces (length (input c)) (sponge c) (input c) in mkChal s [] (firstn RATE s) end.
  (** RecursiveChallenger::observe_element, get_challenge, compact *)
  Definition rec_observe (c : challenger A) (x : A) : challenger A := mkChal (sponge c) (input c ++ [x]) [].
  Definition rec_get_challenge (c : challenger A) : challenger A * option A :=
    let c1 := absorb c in
    let c2 := match output c1 with [] => let s := perm (sponge c1) in mkChal s (input c1) (firstn RATE s) | _ => c1 end in
    (mkChal (sponge c2) (input c2) (removelast (output c2)), last (map Some (output c2)) None).
  Definition rec_compact (c : challenger A) : challenger A := let c1 := absorb c in mkChal (sponge c1) (input c1) [].
  Fixpoint rec_draw (n : nat) (c : challenger A) : challenger A * list (option A) :=
    match n with O => (c, []) | S n' => let '(c1, x) := rec_get_challenge c in let '(c2, xs) := rec_draw n' c1 in (c2, x :: xs) end.
  Definition rec_step (c : challenger A) (o : op A) : challenger A * list (option A) :=
    match o with Observe xs => (fold_left rec_observe xs c, []) | Draw n => rec_draw n c | Compact => (rec_compact c, []) end.
  Fixpoint rec_run (c : challenger A) (os : list (op A)) : list (option A) :=
    match os with [] => [] | o :: os' => let '(c', xs) := rec_step c o in xs ++ rec_run c' os' end.

  (** The native challenger that has absorbed what the recursive one still buffers *)
  Definition caught_up (r : challenger A) : challenger A := fold_left (observe perm) (input r) (mkChal (sponge r) [] (output r)).
  Definition settle (c : challenger A) : challenger A := match input c with [] => c | _ => duplexing perm c end.

  Lemma observe_few s inp o xs : length (inp ++ xs) < RATE -> xs <> [] -> fold_left (observe perm) xs (mkChal s inp o) = mkChal s (inp ++ xs) [].
  Proof.
    revert inp o. induction xs as [|x xs IH]; intros inp o H Hne; [congruence|]. cbn [fold_left].
    assert (E : observe perm (mkChal s inp o) x = mkChal s (inp ++ [x]) []).
    { unfold observe. cbn [sponge input]. destruct (Nat.eqb_spec (length (inp ++ [x])) RATE) as [e|]; auto. rewrite app_length in *. cbn in *. unfold RATE in *. lia. }
    rewrite E. destruct xs as [|y xs]; [reflexivity|]. rewrite IH; [|rewrite <- app_assoc; exact H|congruence]. rewrite <- app_assoc. reflexivity.
  Qed.
  Lemma observe_piece s o xs : length xs = RATE -> fold_left (observe perm) xs (mkChal s [] o) = duplexing perm (mkChal s xs []).
  Proof.
    intros H. destruct (exists_last (l := xs)) as [ys [x E]]; [intros ->; discriminate H|]. subst xs. rewrite fold_left_app.
    assert (Hy : length ys = 7) by (rewrite app_length in H; cbn in H; unfold RATE in H; lia).
    rewrite observe_few; [|cbn; unfold RATE; rewrite ?app_length, Hy; cbn; lia|destruct ys; [discriminate Hy|congruence]].
    cbn [fold_left app]. unfold observe. cbn [sponge input]. rewrite H. rewrite Nat.eqb_refl. reflexivity.
  Qed.
  Lemma settle_pieces fuel : forall s o xs, length xs <= fuel -> xs <> [] ->
    settle (fold_left (observe perm) xs (mkChal s [] o)) = let s' := absorb_pieces fuel s xs in mkChal s' [] (firstn RATE s').
  Proof.
    induction fuel as [|fuel IH]; intros s o xs Hl Hne; [destruct xs; [congruence|cbn in Hl; lia]|].
    destruct (Nat.lt_ge_cases (length xs) RATE) as [Hlt|Hge].
    - rewrite observe_few by assumption. unfold settle. cbn [app input]. destruct xs as [|x xs]; [congruence|].
      cbn [absorb_pieces]. assert (F : firstn RATE (x :: xs) = x :: xs) by (apply firstn_all2; lia). assert (K : skipn RATE (x :: xs) = []) by (apply skipn_all2; lia).
      rewrite F, K. unfold duplexing. cbn [input sponge].
      assert (Hn : forall n s, absorb_pieces n s [] = s) by (intros [|n] s0; reflexivity). rewrite Hn. reflexivity.
    - rewrite <- (firstn_skipn RATE xs) at 1. rewrite fold_left_app, observe_piece by (rewrite firstn_length; lia).
      destruct xs as [|x xs]; [congruence|]. cbn [absorb_pieces]. unfold duplexing at 1. cbn [input sponge].
      set (s1 := perm _). destruct (skipn RATE (x :: xs)) as [|y ys] eqn:E.
      + cbn [fold_left]. assert (Hn : forall n s, absorb_pieces n s [] = s) by (intros [|n] s0; reflexivity). rewrite Hn. reflexivity.
      + rewrite IH; [reflexivity| |congruence]. rewrite <- E, skipn_length. unfold RATE. cbn [length] in *. lia.
  Qed.
  Lemma settle_absorb r : settle (caught_up r) = absorb r.
  Proof.
    unfold caught_up, absorb. destruct r as [s inp o]. cbn [sponge input output]. destruct inp as [|x inp]; [reflexivity|].
    rewrite (settle_pieces (length (x :: inp))); [reflexivity|lia|congruence].
  Qed.
  Lemma absorb_input r : input (absorb r) = [].
  Proof. unfold absorb. destruct (input r) eqn:E; [exact E|reflexivity]. Qed.
  Lemma caught_settled r : input r = [] -> caught_up r = r.
  Proof. destruct r as [s inp o]. cbn. intros ->. reflexivity. Qed.
  Lemma get_settle c : (forall s, perm s <> []) -> get_challenge perm c = get_challenge perm (settle c).
  Proof.
    intros Hp. unfold settle. destruct (input c) as [|x xs] eqn:E; [reflexivity|]. unfold get_challenge. rewrite E. unfold duplexing at 4 5 6 7 8 9 10.
    cbn [input output]. destruct (perm (input c ++ skipn (length (input c)) (sponge c))) as [|y ys] eqn:Ep; [destruct (Hp _ Ep)|].
    unfold duplexing. rewrite Ep. reflexivity.
  Qed.
  Lemma get_rec r : (forall s, perm s <> []) -> let '(r', x) := rec_get_challenge r in get_challenge perm (caught_up r) = (caught_up r', x).
  Proof.
    intros Hp. unfold rec_get_challenge. rewrite get_settle, settle_absorb by exact Hp. unfold get_challenge. pose proof (absorb_input r) as Hi.
    destruct (absorb r) as [s inp o]. cbn [input output sponge] in *. subst inp. destruct o as [|y o]; unfold duplexing; cbn [input output sponge app length skipn]; rewrite caught_settled; reflexivity.
  Qed.
  Lemma draw_rec n : (forall s, perm s <> []) -> forall r, let '(r', xs) := rec_draw n r in draw perm n (caught_up r) = (caught_up r', xs).
  Proof.
    intros Hp. induction n as [|n IH]; intros r; [reflexivity|]. cbn [rec_draw draw]. pose proof (get_rec r Hp) as H. destruct (rec_get_challenge r) as [r1 x].
    rewrite H. specialize (IH r1). destruct (rec_draw n r1) as [r2 xs]. rewrite IH. reflexivity.
  Qed.
  Lemma observe_rec xs r : caught_up (fold_left rec_observe xs r) = fold_left (observe perm) xs (caught_up r).
  Proof.
    revert r. induction xs as [|x xs IH]; intros r; [reflexivity|]. cbn [fold_left]. rewrite IH. f_equal. unfold caught_up, rec_observe. cbn [sponge input output].
    rewrite fold_left_app. cbn [fold_left]. destruct r as [s inp o]. cbn [sponge input output]. destruct inp as [|y inp]; [reflexivity|]. cbn [fold_left].
    do 2 f_equal.
  Qed.
  Lemma compact_rec r : caught_up (rec_compact r) = compact perm (caught_up r).
  Proof.
    unfold rec_compact, compact. fold (settle (caught_up r)). rewrite settle_absorb. rewrite caught_settled; [reflexivity|]. cbn. apply absorb_input.
  Qed.
End Recursive.
