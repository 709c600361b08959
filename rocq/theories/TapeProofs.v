(** Call tape, native recording, padding, digests, input tape, allocator (lemmas for C44-C51). *)
From Coq Require Import Sorting.Sorted.
From Verif Require Import Word SdkModel SdkSpec EventProofs.

Section Calls.
  Context {V : Type} `{EqDecision V}.
  Implicit Types (t : vm_calls).

  Lemma veqb_spec (a b : V) : veqb a b = true <-> a = b.
  Proof. unfold veqb. destruct (decide (a = b)); split; congruence. Qed.
  Lemma beq_refl a : bytes_eqb a a = true. Proof. apply bytes_eqb_spec; auto. Qed.
  Lemma casted_spec t a : is_casted_actor t a = true <-> a = default_id \/ a ∈ vc_cast t.
  Proof.
    unfold is_casted_actor. rewrite orb_true_iff, bytes_eqb_spec, existsb_exists. split.
    - intros [<-|(x & I & E)]; [auto|]. apply bytes_eqb_spec in E as ->. right. apply elem_of_list_In. auto.
    - intros [->|I]; [auto|]. right. exists a. rewrite beq_refl. split; [apply elem_of_list_In; auto|auto].
  Qed.

  Lemma vm_send_inv deA deR t r (arg ret : V) t1 : vm_send veqb deA deR t r arg = Some (ret, t1) ->
    exists m, vc_reader t !! vc_index t = Some m /\ caller m = vc_self t /\ callee m = r /\
      deA (argument m) = arg /\ deR (return_ m) = ret /\ is_casted_actor t r = true /\
      t1 = VC (vc_cast t) (vc_self t) (vc_reader t) (S (vc_index t)).
  Proof.
    unfold vm_send. destruct (vc_index t <? length (vc_reader t))%nat; [|congruence].
    destruct (vc_reader t !! vc_index t) as [m|] eqn:E; cbn [mbind option_bind]; [|congruence].
    destruct (_ && _) eqn:C; [|congruence]. rewrite !andb_true_iff, !bytes_eqb_spec, veqb_spec in C.
    intros [= <- <-]. exists m. tauto.
  Qed.
  Lemma vm_send_ok deA deR t m : vc_reader t !! vc_index t = Some m -> caller m = vc_self t ->
    is_casted_actor t (callee m) = true ->
    vm_send (V := V) veqb deA deR t (callee m) (deA (argument m)) =
    Some (deR (return_ m), VC (vc_cast t) (vc_self t) (vc_reader t) (S (vc_index t))).
  Proof.
    intros E C K. unfold vm_send. pose proof (lookup_lt_Some _ _ _ E).
    replace (vc_index t <? length (vc_reader t))%nat with true by (symmetry; apply Nat.ltb_lt; auto).
    rewrite E. cbn [mbind option_bind]. rewrite C, !beq_refl, K.
    replace (veqb (deA (argument m)) (deA (argument m))) with true by (symmetry; apply veqb_spec; auto). auto.
  Qed.

  Lemma recv_loop_inv (deA deR : list Z -> V) t rest : forall idx r idx',
    recv_loop deA deR t rest idx = Some (r, idx') ->
    exists k, idx' = (idx + k)%nat /\
      match r with
      | None => k = length rest /\ forall m, m ∈ rest -> callee m <> vc_self t
      | Some (who, a, ret) => exists j m, k = S j /\ rest !! j = Some m /\ callee m = vc_self t /\
          caller m = who /\ who <> vc_self t /\ is_casted_actor t who = true /\
          deA (argument m) = a /\ deR (return_ m) = ret /\
          forall i m', (i < j)%nat -> rest !! i = Some m' -> callee m' <> vc_self t
      end.
  Proof.
    induction rest as [|m rest IH]; intros idx r idx' E; cbn [recv_loop] in E.
    - injection E as <- <-. exists 0%nat. split; [lia|]. split; [auto|]. intros m I. apply elem_of_nil in I. tauto.
    - destruct (bytes_eqb (vc_self t) (callee m)) eqn:C.
      + apply bytes_eqb_spec in C. destruct (bytes_eqb (caller m) (vc_self t)) eqn:D; [discriminate|].
        destruct (is_casted_actor t (caller m)) eqn:K; [|discriminate].
        injection E as <- <-. exists 1%nat. split; [lia|]. exists 0%nat, m. repeat split; auto.
        * intros D'. rewrite D', beq_refl in D. congruence.
        * intros i m' L. lia.
      + destruct (IH _ _ _ E) as (k & -> & R). exists (S k). split; [lia|].
        assert (NC : callee m <> vc_self t) by (intros D; rewrite <- D, beq_refl in C; congruence).
        destruct r as [[[who a] ret]|].
        * destruct R as (j & m' & -> & A1 & A2 & A3 & A4 & A5 & A6 & A7 & A8).
          exists (S j), m'. repeat split; auto. intros [|i] m'' L Em; [cbn in Em; congruence|].
          apply (A8 i); [lia|auto].
        * destruct R as (-> & R). split; [auto|]. intros m' I. apply elem_of_cons in I as [->|I]; auto.
  Qed.

  (** Main invariant of a history *)
  Lemma hist_inv t evs t' : vm_hist (V := V) t evs t' ->
    vc_reader t' = vc_reader t /\ vc_self t' = vc_self t /\ vc_cast t' = vc_cast t /\
    (vc_index t <= vc_index t')%nat /\
    exists ps, StronglySorted lt ps /\ Forall (fun p => (vc_index t <= p < vc_index t')%nat) ps /\
      Forall2 (fun e p => exists m, vc_reader t !! p = Some m /\ explains (vc_self t) e m) (List.filter is_message evs) ps /\
      (forall i m, (vc_index t <= i < vc_index t')%nat -> vc_reader t !! i = Some m -> callee m = vc_self t -> i ∈ ps).
  Proof.
    induction 1 as [t|t deA deR r arg ret t1 evs t2 E _ IH|t deA deR who arg ret t1 evs t2 E _ IH|t deA deR t1 evs t2 E _ IH].
    - do 4 (split; [auto|]). exists []. repeat split; try constructor. intros i m L. lia.
    - apply vm_send_inv in E as (m & E1 & E2 & E3 & E4 & E5 & E6 & ->). cbn [vc_reader vc_self vc_cast vc_index] in *.
      destruct IH as (R & S & C & L & ps & P1 & P2 & P3 & P4). do 3 (split; [auto|]). split; [lia|].
      exists (vc_index t :: ps). split; [|split; [|split]].
      + constructor; [auto|]. revert P2. apply Forall_impl. intros p. lia.
      + constructor; [lia|]. revert P2. apply Forall_impl. intros p. lia.
      + cbn [List.filter is_message]. constructor; [|auto]. exists m. cbn [explains]. repeat split; auto.
      + intros i m' Li Em Cm. destruct (decide (i = vc_index t)) as [->|N]; [left|right]. apply (P4 i m'); auto. lia.
    - unfold vm_receive in E.
      destruct (recv_loop deA deR t (drop (vc_index t) (vc_reader t)) (vc_index t)) as [[r idx]|] eqn:RL; cbn [mbind option_bind] in E; [|discriminate].
      injection E as -> <-. apply recv_loop_inv in RL as (k & -> & j & m & -> & A1 & A2 & A3 & A4 & A5 & A6 & A7 & A8).
      cbn [vc_reader vc_self vc_cast vc_index] in *. rewrite lookup_drop in A1.
      destruct IH as (R & S & C & L & ps & P1 & P2 & P3 & P4). do 3 (split; [auto|]). split; [lia|].
      exists ((vc_index t + j)%nat :: ps). split; [|split; [|split]].
      + constructor; [auto|]. revert P2. apply Forall_impl. intros p. lia.
      + constructor; [lia|]. revert P2. apply Forall_impl. intros p. lia.
      + cbn [List.filter is_message]. constructor; [|auto]. exists m. cbn [explains]. repeat split; auto.
      + intros i m' Li Em Cm. destruct (decide (i = vc_index t + j)%nat) as [->|N]; [left|right].
        destruct (Nat.lt_ge_cases i (vc_index t + j)).
        * exfalso. apply (A8 (i - vc_index t)%nat m'); [lia| |auto]. rewrite lookup_drop. rewrite <- Em. f_equal. lia.
        * apply (P4 i m'); auto. lia.
    - unfold vm_receive in E.
      destruct (recv_loop deA deR t (drop (vc_index t) (vc_reader t)) (vc_index t)) as [[r idx]|] eqn:RL; cbn [mbind option_bind] in E; [|discriminate].
      injection E as -> <-. apply recv_loop_inv in RL as (k & -> & -> & A).
      cbn [vc_reader vc_self vc_cast vc_index] in *.
      destruct IH as (R & S & C & L & ps & P1 & P2 & P3 & P4). do 3 (split; [auto|]). split; [lia|].
      exists ps. split; [auto|]. split; [revert P2; apply Forall_impl; intros p; lia|]. split; [auto|].
      intros i m' Li Em Cm. destruct (Nat.lt_ge_cases i (vc_index t + length (drop (vc_index t) (vc_reader t)))).
      + exfalso. apply (A m'); [|auto]. apply elem_of_list_lookup. exists (i - vc_index t)%nat.
        rewrite lookup_drop. rewrite <- Em. f_equal. lia.
      + apply (P4 i m'); auto. lia.
  Qed.

  (** accepting replay *)
  Lemma hist_app t evs t1 evs' t2 : vm_hist (V := V) t evs t1 -> vm_hist t1 evs' t2 -> vm_hist t (evs ++ evs') t2.
  Proof. induction 1; intros K; [auto|econstructor; eauto|econstructor; eauto|econstructor; eauto]. Qed.

  Lemma recv_skip (deA deR : list Z -> V) t pre m rest idx : (forall m', m' ∈ pre -> callee m' <> vc_self t) ->
    callee m = vc_self t -> caller m <> vc_self t -> is_casted_actor t (caller m) = true ->
    recv_loop deA deR t (pre ++ m :: rest) idx =
      Some (Some (caller m, deA (argument m), deR (return_ m)), (idx + S (length pre))%nat).
  Proof.
    revert idx. induction pre as [|x pre IH]; intros idx F C N K.
    - cbn [app recv_loop length]. rewrite <- C at 1. rewrite beq_refl.
      destruct (bytes_eqb (caller m) (vc_self t)) eqn:D; [apply bytes_eqb_spec in D; congruence|].
      rewrite K. cbn. do 2 f_equal. lia.
    - cbn [app recv_loop length]. destruct (bytes_eqb (vc_self t) (callee x)) eqn:D.
      + exfalso. apply (F x ltac:(left)). apply bytes_eqb_spec in D. auto.
      + rewrite IH; auto; [|intros m' I; apply F; right; auto]. do 2 f_equal. lia.
  Qed.
  Lemma recv_skip_all (deA deR : list Z -> V) t rest idx : (forall m', m' ∈ rest -> callee m' <> vc_self t) ->
    recv_loop deA deR t rest idx = Some (None, (idx + length rest)%nat).
  Proof.
    revert idx. induction rest as [|x pre IH]; intros idx F; cbn [recv_loop length].
    - do 2 f_equal. lia.
    - destruct (bytes_eqb (vc_self t) (callee x)) eqn:D.
      + exfalso. apply (F x ltac:(left)). apply bytes_eqb_spec in D. auto.
      + rewrite IH; [|intros m' I; apply F; right; auto]. do 2 f_equal. lia.
  Qed.

  (** replay over [done ++ pend ++ todo]: index at the end of [done]; the messages of [pend] are foreign *)
  Lemma replay (deA deR : list Z -> V) self tape cast :
    (forall m, m ∈ tape -> caller m <> callee m) ->
    (forall m, m ∈ tape -> caller m = self -> callee m = default_id \/ callee m ∈ cast) ->
    (forall m, m ∈ tape -> callee m = self -> caller m = default_id \/ caller m ∈ cast) ->
    no_foreign_before_send self tape ->
    forall todo done pend, tape = done ++ pend ++ todo ->
      (forall m, m ∈ pend -> caller m <> self /\ callee m <> self) ->
      vm_hist (VC cast self tape (length done))
        (flat_map (observation deA deR self) todo ++
         final_look self (pend ++ todo))
        (VC cast self tape (length tape)).
  Proof.
    intros NS C1 C2 NF. induction todo as [|m todo IH]; intros done pend E F.
    - rewrite app_nil_r in *. cbn [flat_map app]. unfold final_look.
      destruct (list.last pend) as [m|] eqn:L.
      + assert (I : m ∈ pend) by (apply last_Some_elem_of; auto). destruct (F m I) as (F1 & F2).
        destruct (decide (caller m = self \/ callee m = self)); [tauto|].
        apply (HNone _ deA deR (VC cast self tape (length tape))); [|constructor].
        unfold vm_receive. cbn [vc_index vc_reader].
        rewrite recv_skip_all.
        2:{ cbn [vc_self]. intros m' I'. rewrite E in I'. rewrite drop_app in I'. apply F in I'. tauto. }
        cbn [mbind option_bind vc_cast vc_self vc_reader]. do 3 f_equal. rewrite drop_length. rewrite E, app_length. lia.
      + apply last_None in L as ->. rewrite app_nil_r in E. rewrite E. constructor.
    - cbn [flat_map]. assert (Im : m ∈ tape) by (rewrite E; set_solver).
      assert (FLE : forall p, final_look (V := V) self (p ++ m :: todo) = final_look self (m :: todo)).
      { intros p. unfold final_look. rewrite list.last_app_cons. reflexivity. }
      assert (FLC : forall m todo, caller m = self \/ callee m = self -> final_look (V := V) self (m :: todo) = final_look self todo).
      { clear. intros m todo C. destruct todo as [|y todo]; unfold final_look.
        - cbn. destruct (decide _); [auto|tauto].
        - reflexivity. }
      rewrite FLE. unfold observation at 1. destruct (decide (caller m = self)) as [Cm|Cm]; [|destruct (decide (callee m = self)) as [Dm|Dm]].
      + (* send: pend must be empty *)
        assert (pend = []) as ->.
        { destruct pend as [|x0 pend0] using rev_ind; [reflexivity|]. exfalso. clear IHpend0.
          destruct (F x0 ltac:(set_solver)) as (F1 & F2).
          destruct (NF (length (done ++ pend0)) x0 m) as [?|?]; auto.
          - rewrite E. replace (done ++ (pend0 ++ [x0]) ++ m :: todo) with ((done ++ pend0) ++ x0 :: m :: todo)
              by (rewrite <- !app_assoc; auto).
            rewrite lookup_app_r by lia. rewrite Nat.sub_diag. auto.
          - rewrite E. replace (done ++ (pend0 ++ [x0]) ++ m :: todo) with ((done ++ pend0) ++ x0 :: m :: todo)
              by (rewrite <- !app_assoc; auto).
            rewrite lookup_app_r by lia. replace (S (length (done ++ pend0)) - length (done ++ pend0))%nat with 1%nat by lia. auto. }
        cbn [app] in *. apply (HSend _ _ _ _ _ _ (VC cast self tape (S (length done)))).
        * apply (vm_send_ok deA deR (VC cast self tape (length done)) m); cbn [vc_reader vc_index vc_self].
          -- rewrite E. rewrite lookup_app_r by lia. rewrite Nat.sub_diag. auto.
          -- auto.
          -- apply casted_spec. cbn [vc_cast]. auto.
        * specialize (IH (done ++ [m]) []). rewrite app_length in IH. cbn [length app] in IH.
          replace (length done + 1)%nat with (S (length done)) in IH by lia.
          rewrite (FLC m todo) by auto. apply IH; [rewrite <- app_assoc; auto|intros m' I; apply elem_of_nil in I; tauto].
      + cbn [app]. apply (HRecv _ _ _ _ _ _ (VC cast self tape (S (length (done ++ pend))))).
        * unfold vm_receive. cbn [vc_index vc_reader]. rewrite E. rewrite drop_app.
          rewrite (recv_skip deA deR (VC cast self (done ++ pend ++ m :: todo) (length done)) pend m todo).
          -- cbn [mbind option_bind vc_cast vc_self vc_reader]. do 3 f_equal. rewrite app_length. lia.
          -- cbn [vc_self]. intros m' I. apply F in I. tauto.
          -- auto.
          -- cbn [vc_self]. rewrite <- Dm. auto.
          -- apply casted_spec. cbn [vc_cast]. auto.
        * specialize (IH (done ++ pend ++ [m]) []). rewrite !app_length in IH. cbn [length app] in IH.
          rewrite app_length. replace (length done + (length pend + 1))%nat with (S (length done + length pend)) in IH by lia.
          rewrite (FLC m todo) by auto. apply IH; [rewrite <- !app_assoc; auto|intros m' I; apply elem_of_nil in I; tauto].
      + cbn [app]. specialize (IH done (pend ++ [m])). rewrite <- app_assoc in IH. cbn [app] in IH.
        rewrite (FLE pend) in IH. apply IH; [auto|]. intros m' I. apply elem_of_app in I as [I|I]; [auto|].
        apply elem_of_list_singleton in I as ->. auto.
  Qed.
End Calls.

(** cast list *)
Lemma set_insert_elem x y l : x ∈ set_insert y l <-> x = y \/ x ∈ l.
Proof.
  induction l as [|z l IH]; cbn [set_insert]; [set_solver|].
  destruct (lex y z) eqn:E; rewrite ?elem_of_cons.
  - apply lex_eq in E as ->. set_solver.
  - set_solver.
  - rewrite IH. set_solver.
Qed.
Lemma btree_set_elem x l : x ∈ btree_set l <-> x ∈ l.
Proof.
  unfold btree_set. enough (G : forall s, x ∈ fold_left (fun s x => set_insert x s) l s <-> x ∈ s \/ x ∈ l) by (rewrite G; set_solver).
  induction l as [|y l IH]; intros s; cbn [fold_left]; [set_solver|]. rewrite IH, set_insert_elem, elem_of_cons. tauto.
Qed.
Lemma cast_list_elem x tape : x ∈ cast_list tape <-> exists m, m ∈ tape /\ callee m = x.
Proof.
  unfold cast_list. rewrite btree_set_elem, elem_of_list_fmap. split; intros (m & A & B); exists m; auto.
Qed.
(** ordered and without duplicates, hence the same for the same set of callees *)
Lemma lex_lt_trans : Transitive (fun a b => lex a b = Lt).
Proof. intros x y z. apply lex_trans. Qed.
Lemma set_insert_sorted x l : StronglySorted (fun a b => lex a b = Lt) l -> StronglySorted (fun a b => lex a b = Lt) (set_insert x l).
Proof.
  induction 1 as [|y l S IH F]; cbn [set_insert]; [constructor; constructor|].
  destruct (lex x y) eqn:E.
  - constructor; auto.
  - constructor; [constructor; auto|]. constructor; [auto|]. revert F. apply Forall_impl. intros z. apply lex_lt_trans. auto.
  - constructor; [auto|]. apply List.Forall_forall. intros z I. apply elem_of_list_In, set_insert_elem in I as [->|I].
    + rewrite lex_anti, E. auto.
    + rewrite List.Forall_forall in F. apply F, elem_of_list_In. auto.
Qed.
Lemma btree_set_sorted l : StronglySorted (fun a b => lex a b = Lt) (btree_set l).
Proof.
  unfold btree_set. enough (G : forall s, StronglySorted (fun a b => lex a b = Lt) s -> StronglySorted (fun a b => lex a b = Lt) (fold_left (fun s x => set_insert x s) l s)) by (apply G; constructor).
  induction l as [|y l IH]; intros s S; cbn [fold_left]; [auto|]. apply IH, set_insert_sorted; auto.
Qed.

(** native recording *)
Section Native.
  Variable H : list Z -> digest.

  Lemma action_ind' (P : action -> Prop) :
    (forall r a body ret, Forall P body -> P (ACall r a body ret)) ->
    (forall e, P (AEmit e)) -> (forall q b, P (AInput q b)) -> forall a, P a.
  Proof.
    intros A B C. fix IH 1. intros [r a body ret|e|q b]; [|apply B|apply C].
    apply A. induction body as [|x body IHb]; constructor; [apply IH|apply IHb].
  Qed.
  Fixpoint run_list (s : native) (l : list action) : option native :=
    match l with [] => Some s | x :: r => s' ← native_exec H s x; run_list s' r end.
  Lemma run_list_eq s l : run_list s l = native_run H s l.
  Proof. revert s. induction l as [|x l IH]; intros s; cbn; [auto|]. destruct (native_exec H s x); cbn; auto. Qed.
  Lemma exec_call s r a body ret : native_exec H s (ACall r a body ret) =
    (s1 ← native_run H (send_begin s r a) body; send_end s1 (length (n_calls s)) ret).
  Proof.
    cbn [native_exec]. generalize (send_begin s r a). generalize (length (n_calls s)).
    induction body as [|x body IH]; intros n s0; cbn [native_run]; [reflexivity|].
    destruct (native_exec H s0 x) as [s1|]; cbn [mbind option_bind]; [|reflexivity].
    apply IH.
  Qed.
  Lemma attributed_call who r a body ret : attributed who (ACall r a body ret) <-> Forall (attributed r) body.
  Proof.
    cbn [attributed]. induction body as [|x body IH]; [split; [constructor|auto]|].
    split.
    - intros (A & B). constructor; [auto|]. apply IH. auto.
    - intros F. inversion F; subst. split; [auto|]. apply IH. auto.
  Qed.

  Lemma attributed_dec a : forall who, attributed who a \/ ~ attributed who a.
  Proof.
    induction a as [r x body ret IH|e|q b] using action_ind'; intros who.
    - rewrite attributed_call. induction IH as [|y body Hy IHb IH]; [left; constructor|].
      destruct (Hy r), IH; [left; constructor; auto|right; intros C; inversion C; auto..].
    - cbn. destruct (decide (who = default_id)); tauto.
    - cbn. destruct (decide (who = default_id)); tauto.
  Qed.
  (** what one action (or a list) adds to the state *)
  Definition adds (s s' : native) (cs : list cpc) (ev : progid -> list event) (inp : bool -> progid -> list Z) : Prop :=
    n_stack s' = n_stack s /\ n_calls s' = n_calls s ++ cs /\
    (forall id, default [] (n_events s' !! id) = default [] (n_events s !! id) ++ ordered_new H (ev id)) /\
    (forall id, default [] (n_private s' !! id) = default [] (n_private s !! id) ++ inp false id) /\
    (forall id, default [] (n_public s' !! id) = default [] (n_public s !! id) ++ inp true id).

  Lemma top_add st id : top_identity (add_identity st id) = id.
  Proof. unfold top_identity, add_identity. apply List.last_last. Qed.
  Lemma rm_add st id : rm_identity (add_identity st id) = st.
  Proof.
    unfold rm_identity, add_identity. rewrite app_length. cbn [length].
    replace (length st + 1 - 1)%nat with (length st) by lia. apply take_app.
  Qed.

  Definition good (a : action) : Prop := forall s,
    let who := top_identity (n_stack s) in
    (attributed who a -> exists s', native_exec H s a = Some s' /\
       adds s s' (calls_of who a) (fun id => events_of id who a) (fun q id => input_of q id who a)) /\
    (~ attributed who a -> native_exec H s a = None).

  Lemma good_list l : Forall good l -> forall s,
    let who := top_identity (n_stack s) in
    (Forall (attributed who) l -> exists s', native_run H s l = Some s' /\
       adds s s' (flat_map (calls_of who) l) (fun id => flat_map (events_of id who) l)
            (fun q id => flat_map (input_of q id who) l)) /\
    (~ Forall (attributed who) l -> native_run H s l = None).
  Proof.
    induction 1 as [|a l G F IH]; intros s who.
    - split; [|intros C; exfalso; apply C; constructor]. intros _. exists s. split; [reflexivity|].
      unfold adds. cbn [flat_map ordered_new map]. repeat split; intros; rewrite ?app_nil_r; auto.
    - destruct (G s) as (G1 & G2). fold who in G1, G2. cbn [native_run]. split.
      + intros A. inversion A as [|? ? Aa Al]; subst. destruct (G1 Aa) as (s1 & E1 & S1 & C1 & V1 & P1 & Q1).
        rewrite E1. cbn [mbind option_bind]. destruct (IH s1) as (IH1 & _). rewrite S1 in IH1. fold who in IH1.
        destruct (IH1 Al) as (s2 & E2 & S2 & C2 & V2 & P2 & Q2). exists s2. split; [auto|].
        unfold adds. cbn [flat_map]. split; [congruence|]. split; [rewrite C2, C1, <- app_assoc; auto|].
        split; [|split].
        * intros id. rewrite V2, V1. unfold ordered_new. rewrite map_app, app_assoc. auto.
        * intros id. rewrite P2, P1, app_assoc. auto.
        * intros id. rewrite Q2, Q1, app_assoc. auto.
      + intros A. destruct (native_exec H s a) as [s1|] eqn:E1; [|reflexivity]. cbn [mbind option_bind].
        assert (Aa : attributed who a \/ ~ attributed who a) by apply attributed_dec.
        destruct Aa as [Aa|Aa]; [|specialize (G2 Aa); congruence].
        destruct (G1 Aa) as (s1' & E1' & S1 & _). injection E1' as <-.
        destruct (IH s1) as (_ & IH2). rewrite S1 in IH2. fold who in IH2. apply IH2. intros C. apply A. constructor; auto.
  Qed.

  Lemma all_good a : good a.
  Proof.
    induction a as [r x body ret F|e|q b] using action_ind'; intros s who.
    - rewrite exec_call, attributed_call.
      destruct (good_list body F (send_begin s r x)) as (G1 & G2).
      cbn [send_begin n_stack] in G1, G2. rewrite top_add in G1, G2. split.
      + intros A. destruct (G1 A) as (s1 & E1 & S1 & C1 & V1 & P1 & Q1). rewrite E1. cbn [mbind option_bind].
        cbn [send_begin n_stack n_calls n_events n_private n_public] in *.
        unfold send_end. rewrite C1, <- app_assoc. cbn [app].
        rewrite lookup_app_r by lia. rewrite Nat.sub_diag. cbn [mbind option_bind].
        change ((CPC (top_identity (n_stack s)) r x [] :: flat_map (calls_of r) body) !! 0%nat)
          with (Some (CPC (top_identity (n_stack s)) r x [])). cbn [mbind option_bind].
        eexists. split; [reflexivity|]. unfold adds. cbn [n_stack n_calls n_events n_private n_public caller callee argument].
        rewrite S1, rm_add. split; [auto|]. split; [|auto].
        cbn [calls_of]. rewrite insert_app_r_alt by lia. rewrite Nat.sub_diag. reflexivity.
      + intros A. rewrite (G2 A). reflexivity.
    - cbn [native_exec attributed]. unfold native_emit. fold who.
      destruct (bytes_eqb who default_id) eqn:E.
      + apply bytes_eqb_spec in E. split; [tauto|auto].
      + assert (N : who <> default_id) by (intros C; rewrite C, (proj2 (bytes_eqb_spec _ _)) in E by auto; congruence).
        split; [|tauto]. intros _. eexists. split; [reflexivity|]. unfold adds.
        cbn [n_stack n_calls n_events n_private n_public calls_of events_of input_of]. rewrite app_nil_r.
        do 2 (split; [auto|]). split; [|split; intros; rewrite app_nil_r; auto].
        intros id. destruct (decide (id = who)) as [->|Nid].
        * rewrite lookup_insert. reflexivity.
        * rewrite lookup_insert_ne by auto. cbn. rewrite app_nil_r. auto.
    - cbn [native_exec attributed]. unfold native_write. fold who.
      destruct (bytes_eqb who default_id) eqn:E.
      + apply bytes_eqb_spec in E. split; [tauto|auto].
      + assert (N : who <> default_id) by (intros C; rewrite C, (proj2 (bytes_eqb_spec _ _)) in E by auto; congruence).
        split; [|tauto]. intros _. eexists. split; [reflexivity|]. unfold adds.
        destruct q; cbn [n_stack n_calls n_events n_private n_public calls_of events_of input_of ordered_new map Bool.eqb]; rewrite ?app_nil_r.
        * do 2 (split; [auto|]). split; [intros; rewrite app_nil_r; auto|]. split; intros id.
          -- destruct (decide (id = who)); rewrite app_nil_r; auto.
          -- destruct (decide (id = who)) as [->|Nid]; [rewrite lookup_insert; auto|].
             rewrite lookup_insert_ne by auto. rewrite app_nil_r. auto.
        * do 2 (split; [auto|]). split; [intros; rewrite app_nil_r; auto|]. split; intros id.
          -- destruct (decide (id = who)) as [->|Nid]; [rewrite lookup_insert; auto|].
             rewrite lookup_insert_ne by auto. rewrite app_nil_r. auto.
          -- destruct (decide (id = who)); rewrite app_nil_r; auto.
  Qed.

  Lemma native_run_spec l s : let who := top_identity (n_stack s) in
    (Forall (attributed who) l -> exists s', native_run H s l = Some s' /\
       adds s s' (flat_map (calls_of who) l) (fun id => flat_map (events_of id who) l)
            (fun q id => flat_map (input_of q id who) l)) /\
    (~ Forall (attributed who) l -> native_run H s l = None).
  Proof. apply good_list. clear. induction l; constructor; auto using all_good. Qed.

  (** callers on a recorded tape were called before (or are the initial identity) *)
  Lemma calls_of_callers who a : forall m, m ∈ calls_of who a -> caller m = who \/ exists m', m' ∈ calls_of who a /\ callee m' = caller m.
  Proof.
    revert who. induction a as [r x body ret F|e|q b] using action_ind'; intros who m I; cbn [calls_of] in *; try (apply elem_of_nil in I; tauto).
    apply elem_of_cons in I as [->|I]; [auto|]. right.
    apply elem_of_list_In, in_flat_map in I as (y & Iy & I). apply elem_of_list_In in I.
    rewrite List.Forall_forall in F. destruct (F y Iy r m I) as [E|(m' & I' & E)].
    - eexists. split; [left|]. cbn. auto.
    - exists m'. split; [right|auto]. apply elem_of_list_In, in_flat_map. exists y. split; [auto|]. apply elem_of_list_In. auto.
  Qed.
  Lemma flat_calls_callers who l : forall m, m ∈ flat_map (calls_of who) l -> caller m = who \/ exists m', m' ∈ flat_map (calls_of who) l /\ callee m' = caller m.
  Proof.
    intros m I. apply elem_of_list_In, in_flat_map in I as (y & Iy & I). apply elem_of_list_In in I.
    destruct (calls_of_callers _ _ _ I) as [E|(m' & I' & E)]; [auto|]. right. exists m'. split; [|auto].
    apply elem_of_list_In, in_flat_map. exists y. split; [auto|]. apply elem_of_list_In. auto.
  Qed.
End Native.

(** padding *)
Lemma next_multiple_spec n k : (0 < k)%nat -> (0 < n)%nat ->
  (n <= next_multiple_of n k < n + k)%nat /\ (next_multiple_of n k mod k = 0)%nat.
Proof.
  intros Hk Hn. unfold next_multiple_of. split; [|apply Nat.mod_mul; lia].
  pose proof (Nat.div_mod (n + k - 1) k ltac:(lia)). pose proof (Nat.mod_upper_bound (n + k - 1) k ltac:(lia)). nia.
Qed.
Lemma pad_length x : (length (pad x) mod 8 = 0)%nat /\ (length x < length (pad x) <= length x + 8)%nat.
Proof.
  unfold pad. rewrite !app_length, repeat_length. cbn [length].
  destruct (next_multiple_spec (length x + 1) RATE) as (A & B); [unfold RATE; lia|lia|].
  replace (length x + 1 + (next_multiple_of (length x + 1) RATE - (length x + 1)))%nat with (next_multiple_of (length x + 1) RATE) by lia.
  unfold RATE in *. lia.
Qed.
(** removing trailing zeros and then the last byte *)
Fixpoint rtrim (l : list Z) : list Z :=
  match l with
  | [] => []
  | b :: r => match rtrim r with [] => if b =? 0 then [] else [b] | s => b :: s end
  end.
Lemma rtrim_zeros n : rtrim (repeat 0 n) = [].
Proof. induction n as [|n IH]; cbn; [auto|]. rewrite IH. auto. Qed.
Lemma rtrim_pad x n : rtrim (x ++ 1 :: repeat 0 n) = x ++ [1].
Proof.
  induction x as [|b x IH]; cbn [app rtrim].
  - rewrite rtrim_zeros. auto.
  - rewrite IH. destruct (x ++ [1]) eqn:E; [|auto]. destruct x; cbn in E; congruence.
Qed.
Lemma pad_inj x y : pad x = pad y -> x = y.
Proof.
  intros E. apply (f_equal rtrim) in E. unfold pad in E. rewrite <- !app_assoc in E. cbn [app] in E.
  rewrite !rtrim_pad in E. apply app_inj_tail in E. tauto.
Qed.

(** digests *)
Lemma le_bytes_len n x : length (le_bytes n x) = n.
Proof. revert x. induction n; intros x; cbn; auto. Qed.
Lemma from_le_bytes n x : 0 <= x < 256 ^ Z.of_nat n -> from_le (le_bytes n x) = x.
Proof.
  revert x. induction n as [|n IH]; intros x Hx; cbn [le_bytes from_le].
  - cbn in Hx. lia.
  - rewrite Nat2Z.inj_succ, Z.pow_succ_r in Hx by lia. rewrite IH.
    + pose proof (Z.div_mod x 256). lia.
    + split; [apply Z.div_pos; lia|]. apply Z.div_lt_upper_bound; lia.
Qed.
Lemma le_bytes_from l : Forall u8 l -> le_bytes (length l) (from_le l) = l.
Proof.
  induction 1 as [|b l Hb F IH]; cbn [length le_bytes from_le]; [auto|]. unfold u8 in Hb.
  replace ((b + 256 * from_le l) mod 256) with b.
  2:{ rewrite Z.mul_comm, Z.mod_add by lia. symmetry. apply Z.mod_small. lia. }
  replace ((b + 256 * from_le l) / 256) with (from_le l).
  2:{ rewrite Z.mul_comm, Z.div_add by lia. rewrite Z.div_small by lia. lia. }
  rewrite IH. auto.
Qed.
Lemma from_le_range l : Forall u8 l -> 0 <= from_le l < 256 ^ Z.of_nat (length l).
Proof.
  induction 1 as [|b l Hb F IH]; cbn [length from_le]; [cbn; lia|]. unfold u8 in Hb.
  rewrite Nat2Z.inj_succ, Z.pow_succ_r by lia. lia.
Qed.
Lemma to_from_u64s v : length v = 4%nat -> Forall u64 v -> to_u64s (from_u64s v) = v.
Proof.
  intros L F. destruct v as [|a [|b [|c [|d [|]]]]]; try discriminate L.
  inversion F as [|? ? Ha F1]; subst. inversion F1 as [|? ? Hb F2]; subst. inversion F2 as [|? ? Hc F3]; subst.
  inversion F3 as [|? ? Hd _]; subst. unfold u64 in *.
  unfold to_u64s, from_u64s. cbn [map seq]. 
  assert (X : forall n x r, take n (le_bytes n x ++ r) = le_bytes n x).
  { intros n x r. rewrite <- (le_bytes_len n x) at 1. apply take_app. }
  assert (Y : forall n x r m, drop (n + m) (le_bytes n x ++ r) = drop m r).
  { intros n x r m. rewrite <- (le_bytes_len n x) at 1. rewrite <- drop_drop, drop_app. auto. }
  cbn [flat_map]. change (8 * 0)%nat with 0%nat. change (8 * 1)%nat with (8 + 0)%nat.
  change (8 * 2)%nat with (8 + (8 + 0))%nat. change (8 * 3)%nat with (8 + (8 + (8 + 0)))%nat.
  rewrite !Y, !drop_0, !X. rewrite !from_le_bytes by (cbn; lia). auto.
Qed.
Lemma from_to_u64s d : length d = 32%nat -> Forall u8 d -> from_u64s (to_u64s d) = d.
Proof.
  intros L F. unfold from_u64s, to_u64s. cbn [map seq flat_map].
  assert (X : forall i, (8 * i + 8 <= 32)%nat -> le_bytes 8 (from_le (take 8 (drop (8 * i) d))) = take 8 (drop (8 * i) d)).
  { intros i Hi. assert (Li : length (take 8 (drop (8 * i) d)) = 8%nat) by (rewrite take_length, drop_length; lia).
    rewrite <- Li at 1. apply le_bytes_from. apply Forall_take, Forall_drop. auto. }
  rewrite !X by lia. rewrite app_nil_r.
  rewrite <- (take_drop 8 d) at 5. f_equal. rewrite <- (take_drop 8 (drop 8 d)) at 1. f_equal.
  rewrite <- (take_drop 8 (drop 8 (drop 8 d))) at 1. rewrite !drop_drop. f_equal.
  rewrite take_ge by (rewrite drop_length; lia). auto.
Qed.

(** input tape *)
Lemma it_read_ok B t n : tape_over B t -> 0 <= n -> it_offset t + n <= Z.of_nat (length B) ->
  exists t', it_read t n = Some (n, take (Z.to_nat n) (drop (Z.to_nat (it_offset t)) B), t') /\
    tape_over B t' /\ it_offset t' = it_offset t + n.
Proof.
  intros (k & Lk & Eb & Er & Es & Ho) Hn Hle. unfold it_read. rewrite Es.
  replace (Z.of_nat (length B) <? it_offset t + n) with false by lia.
  rewrite Eb, take_length, Nat.min_l by lia.
  set (o := Z.to_nat (it_offset t)) in *. assert (Eo : it_offset t = Z.of_nat o) by lia. rewrite Eo in *.
  set (m := Z.to_nat n). assert (Em : n = Z.of_nat m) by lia. rewrite Em in *.
  destruct (Z.ltb_spec (Z.of_nat m) (Z.of_nat k - Z.of_nat o)) as [C|C].
  - replace ((Z.of_nat m <? 0) || (Z.of_nat k - Z.of_nat o <? 0) || (Z.of_nat m - Z.of_nat m <? 0)) with false by lia.
    rewrite !Nat2Z.id, Z.sub_diag. cbn [Z.to_nat ecall_read take drop]. unfold ecall_read. cbn [take drop length repeat Nat.sub app].
    rewrite Z.eqb_refl. eexists. split; [|split].
    + rewrite app_nil_r. do 3 f_equal. rewrite skipn_firstn_comm. rewrite take_take. f_equal. lia.
    + exists k. cbn [it_buf it_rest it_size_hint it_offset]. rewrite app_nil_r, Er. repeat split; try lia; auto.
    + cbn. auto.
  - replace ((Z.of_nat m <? 0) || (Z.of_nat k - Z.of_nat o <? 0) || (Z.of_nat m - (Z.of_nat k - Z.of_nat o) <? 0)) with false by lia.
    replace (Z.of_nat m - (Z.of_nat k - Z.of_nat o)) with (Z.of_nat (m - (k - o))) by lia.
    rewrite !Nat2Z.id. replace (Z.to_nat (Z.of_nat k - Z.of_nat o)) with (k - o)%nat by lia.
    unfold ecall_read. rewrite Er.
    assert (Lg : length (take (m - (k - o)) (drop k B)) = (m - (k - o))%nat) by (rewrite take_length, drop_length; lia).
    rewrite Lg, Nat.sub_diag. cbn [repeat]. rewrite app_nil_r.
    rewrite Z.eqb_refl. eexists. split; [|split].
    + do 3 f_equal. rewrite skipn_firstn_comm, take_take, Nat.min_id.
      replace (take m (drop o B)) with (take ((k - o) + (m - (k - o))) (drop o B)) by (f_equal; lia).
      rewrite <- (take_drop (k - o) (drop o B)) at 2.
      rewrite take_add_app by (rewrite take_length, drop_length; lia). f_equal. f_equal. rewrite drop_drop. f_equal. lia.
    + exists (k + (m - (k - o)))%nat. cbn [it_buf it_rest it_size_hint it_offset]. repeat split; try lia; auto.
      * rewrite <- (take_drop k B) at 3. rewrite take_add_app by (rewrite take_length; lia). auto.
      * rewrite drop_drop. auto.
    + cbn. auto.
Qed.
Lemma it_read_short B t n : tape_over B t -> 0 <= n -> Z.of_nat (length B) < it_offset t + n -> it_read t n = None.
Proof.
  intros (k & Lk & Eb & Er & Es & Ho) Hn Hlt. unfold it_read. rewrite Es.
  replace (Z.of_nat (length B) <? it_offset t + n) with true by lia.
  rewrite Eb, take_length, Nat.min_l by lia.
  destruct (_ || _ || _) eqn:E0; [auto|].
  destruct (ecall_read (it_rest t) _) as [got rest].
  destruct (Z.ltb_spec (Z.of_nat (length B) - it_offset t) (Z.of_nat k - it_offset t));
  match goal with |- (if ?b then _ else _) = None => replace b with false by lia; auto end.
Qed.

(** allocator *)
Lemma align_up_spec p k : 0 <= k -> 0 <= p ->
  let offset := Z.land p (2 ^ k - 1) in
  let q := if offset =? 0 then p else p + (2 ^ k - offset) in
  p <= q < p + 2 ^ k /\ q mod 2 ^ k = 0.
Proof.
  intros Hk Hp. cbv zeta. assert (E : Z.land p (2 ^ k - 1) = p mod 2 ^ k).
  { rewrite <- Z.land_ones by lia. f_equal. rewrite Z.ones_equiv. lia. }
  rewrite E. assert (P : 0 < 2 ^ k) by lia. pose proof (Z.mod_pos_bound p (2 ^ k) P).
  destruct (Z.eqb_spec (p mod 2 ^ k) 0).
  - split; [lia|auto].
  - split; [lia|]. pose proof (Z.div_mod p (2 ^ k) ltac:(lia)).
    replace (p + (2 ^ k - p mod 2 ^ k)) with ((p / 2 ^ k + 1) * 2 ^ k) by lia. apply Z.mod_mul. lia.
Qed.
Lemma alloc_spec checks e hp bytes k ptr hp' : 0 < e -> 0 <= hp -> 0 <= bytes -> 0 <= k ->
  (checks = true \/ (if hp =? 0 then e else hp) + 2 ^ k + bytes <= 4294967296) ->
  alloc_aligned checks e hp bytes (2 ^ k) = Some (ptr, hp') ->
  (if hp =? 0 then e else hp) <= ptr /\ ptr mod 2 ^ k = 0 /\ hp' = ptr + bytes /\ hp' < 4294967296 /\
  ptr < (if hp =? 0 then e else hp) + 2 ^ k.
Proof.
  intros He Hhp Hb Hk Hc. unfold alloc_aligned. set (p := if hp =? 0 then e else hp) in *.
  assert (Hp : 0 <= p) by (unfold p; destruct (hp =? 0); lia).
  pose proof (align_up_spec p k Hk Hp) as A. cbv zeta in A.
  set (off := Z.land p (2 ^ k - 1)) in *.
  assert (Add : forall a b c, add_usize checks a b = Some c -> (checks = true \/ a + b < 4294967296) -> c = a + b /\ c < 4294967296).
  { intros a b c. unfold add_usize. destruct (Z.ltb_spec (a + b) 4294967296); [intros [= <-]; auto|].
    intros E [->|?]; [discriminate|lia]. }
  destruct (off =? 0) eqn:O; cbn [mbind option_bind].
  - destruct (add_usize checks p bytes) as [nx|] eqn:E1; cbn [mbind option_bind]; [|discriminate]. intros [= <- <-].
    apply Add in E1; [|destruct Hc as [->|Hc]; [auto|right; lia]]. destruct E1 as (-> & ?). repeat split; lia || tauto.
  - destruct (add_usize checks p (2 ^ k - off)) as [q|] eqn:E0; cbn [mbind option_bind]; [|discriminate].
    destruct (add_usize checks q bytes) as [nx|] eqn:E1; cbn [mbind option_bind]; [|discriminate]. intros [= <- <-].
    apply Add in E0; [|destruct Hc as [->|Hc]; [auto|right; lia]]. destruct E0 as (-> & ?).
    apply Add in E1; [|destruct Hc as [->|Hc]; [auto|right; lia]]. destruct E1 as (-> & ?). repeat split; lia || tauto.
Qed.
Lemma alloc_run_spec e : 0 < e -> forall reqs hp blocks, 0 <= hp -> (hp = 0 \/ e <= hp) ->
  Forall (fun r => 0 <= fst r /\ exists k, 0 <= k /\ snd r = 2 ^ k) reqs ->
  alloc_run true e hp reqs = Some blocks ->
  map snd blocks = map fst reqs /\
  Forall (fun b => (if hp =? 0 then e else hp) <= fst b /\ fst b + snd b < 4294967296) blocks /\
  Forall2 (fun b r => fst b mod snd r = 0) blocks reqs /\
  (forall i j b b', (i < j)%nat -> blocks !! i = Some b -> blocks !! j = Some b' -> fst b + snd b <= fst b').
Proof.
  intros He. induction reqs as [|[bytes al] reqs IH]; intros hp blocks Hhp Hd F E.
  - injection E as <-. repeat split; try constructor. intros i j b b' _ E. rewrite lookup_nil in E. discriminate.
  - inversion F as [|? ? (Hb & k & Hk & Ea) F']; subst. cbn [fst snd] in *. subst al. cbn [alloc_run] in E.
    destruct (alloc_aligned true e hp bytes (2 ^ k)) as [[ptr hp']|] eqn:A; cbn [mbind option_bind] in E; [|discriminate].
    destruct (alloc_run true e hp' reqs) as [rest|] eqn:R; cbn [mbind option_bind] in E; [|discriminate]. injection E as <-.
    apply alloc_spec in A as (A1 & A2 & A3 & A4 & A5); auto.
    assert (P : e <= ptr) by (destruct (hp =? 0) eqn:Z0; lia).
    assert (Hhp' : hp' <> 0) by lia.
    destruct (IH hp' rest) as (I1 & I2 & I3 & I4); auto; try lia.
    replace (hp' =? 0) with false in I2 by lia.
    cbn [map fst snd]. split; [rewrite I1; auto|]. split; [|split].
    + constructor; [cbn [fst snd]; split; lia|]. revert I2. apply Forall_impl. intros b. lia.
    + constructor; auto.
    + intros i j b b' L Ei Ej. destruct j as [|j]; [lia|]. cbn in Ej. destruct i as [|i]; cbn in Ei.
      * injection Ei as <-. cbn [fst snd]. rewrite List.Forall_forall in I2.
        specialize (I2 b' ltac:(apply elem_of_list_In; eapply elem_of_list_lookup_2; eauto)). lia.
      * apply (I4 i j); auto. lia.
Qed.
