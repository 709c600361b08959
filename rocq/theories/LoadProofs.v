(** Proofs about program loading. *)
From Verif Require Import RunSpec DecodeProofs ExecProofs IsaProofs StepProofs.
Open Scope Z_scope.
Ltac Zify.zify_post_hook ::= Z.div_mod_to_equations.

(** ** Specification vocabulary *)
(** [last_at a l] is the value of the last pair of [l] with key [a]. *)
Fixpoint last_at {V} (a : Z) (l : list (Z * V)) : option V :=
  match l with
  | [] => None
  | (k, v) :: r => match last_at a r with Some x => Some x | None => if k =? a then Some v else None end
  end.

Lemma collect_map_acc {V} (l : list (Z * V)) (m0 : gmap Z V) a :
  fold_left (fun m '(k, v) => <[k := v]> m) l m0 !! a
  = match last_at a l with Some v => Some v | None => m0 !! a end.
Proof.
  revert m0; induction l as [|[k v] l IH]; intros m0; cbn [fold_left last_at]; auto.
  rewrite IH. destruct (last_at a l); auto.
  destruct (Z.eqb_spec k a) as [->|].
  - apply lookup_insert.
  - apply lookup_insert_ne; auto.
Qed.
Lemma collect_map_lookup {V} (l : list (Z * V)) a : collect_map l !! a = last_at a l.
Proof. unfold collect_map. rewrite collect_map_acc. destruct (last_at a l); auto. Qed.

Lemma last_at_app {V} a (l1 l2 : list (Z * V)) :
  last_at a (l1 ++ l2) = match last_at a l2 with Some v => Some v | None => last_at a l1 end.
Proof. induction l1 as [|[k v] l1 IH]; cbn; [destruct (last_at a l2); auto|]. rewrite IH. destruct (last_at a l2); auto. Qed.
Lemma last_at_In {V} a (l : list (Z * V)) v : last_at a l = Some v -> In (a, v) l.
Proof.
  induction l as [|[k x] l IH]; cbn; [discriminate|]. destruct (last_at a l) eqn:E.
  - intros [= ->]. right; auto.
  - destruct (Z.eqb_spec k a) as [->|]; [intros [= ->]; auto|discriminate].
Qed.
Lemma last_at_None {V} a (l : list (Z * V)) : last_at a l = None <-> ~ In a (map fst l).
Proof.
  induction l as [|[k x] l IH]; cbn; [tauto|]. destruct (last_at a l).
  - split; [discriminate|]. intros H. destruct IH as [_ IH]. discriminate IH. tauto.
  - destruct (Z.eqb_spec k a); split; try discriminate; try tauto.
Qed.

Lemma map_res_ok {A B} (f : A -> res B) l ys : map_res f l = Ok ys -> Forall2 (fun x y => f x = Ok y) l ys.
Proof.
  revert ys; induction l as [|x l IH]; cbn; intros ys.
  - intros [= <-]. constructor.
  - destruct (f x) as [y| |] eqn:E; cbn; try discriminate. destruct (map_res f l) as [zs| |]; cbn; try discriminate.
    intros [= <-]. constructor; auto.
Qed.
Lemma map_res_total {A B} (f : A -> res B) l : Forall (fun x => exists y, f x = Ok y) l -> exists ys, map_res f l = Ok ys.
Proof.
  induction 1 as [|x l [y E] _ [ys IH]]; cbn; [eauto|]. rewrite E; cbn. rewrite IH; cbn. eauto.
Qed.

(** ** Code *)
Definition key_of (a : Z) : Z := a / 4 * 4.
Lemma land_key a : u32 a -> Z.land a 4294967292 = key_of a.
Proof. intros. unfold key_of. rewrite (land_clear a 2) by (auto; try lia; reflexivity). reflexivity. Qed.

Notation image_ok := bytes_ok (only parsing).

Lemma image_word_u32 image a : image_ok image -> u32 (image_word image a).
Proof.
  intros H. unfold image_word.
  assert (B : forall k, 0 <= default 0 (image !! k) < 256).
  { intros k. destruct (image !! k) eqn:E; cbn; [apply (H _ _ E)|lia]. }
  pose proof (B (a + 0)). pose proof (B (a + 1)). pose proof (B (a + 2)). pose proof (B (a + 3)). unfold u32. lia.
Qed.
Lemma load_word_ok image a w : load_word image a = Ok w -> w = image_word image a.
Proof.
  unfold load_word. destruct (_ <? _); [|discriminate]. intros [= <-].
  unfold from_le_bytes32, image_word. rewrite Z.add_0_r. reflexivity.
Qed.

Lemma code_from_entries image c : image_ok image -> code_from image = Ok c ->
  forall a d, c !! a = Some d <->
    (a mod 4 = 0 /\ (exists k, 0 <= k < 4 /\ is_Some (image !! (a + k))) /\ d = decode_instruction a (image_word image a)).
Proof.
  intros Him E a d. unfold code_from in E.
  destruct (map_res _ _) as [es| |] eqn:M; cbn in E; try discriminate. injection E as <-.
  apply map_res_ok in M.
  transitivity (last_at a es = Some d); [rewrite <- (collect_map_lookup es a); reflexivity|].
  assert (A : Forall (fun e => exists x, is_Some (image !! x) /\ u32 x /\ fst e = key_of x /\
                 snd e = decode_instruction (key_of x) (image_word image (key_of x))) es /\
              (forall x, is_Some (image !! x) -> exists e, In e es /\ fst e = key_of x)).
  { assert (K : forall x, In x (map fst (map_to_list image)) <-> is_Some (image !! x)).
    { intros x. rewrite in_map_iff. split.
      - intros ([k v] & <- & Hin). apply elem_of_list_In, elem_of_map_to_list in Hin. cbn. eauto.
      - intros [v Hv]. exists (x, v). split; auto. apply elem_of_list_In, elem_of_map_to_list. auto. }
    assert (K1 : forall x, In x (map fst (map_to_list image)) -> is_Some (image !! x)) by (intros; apply K; auto).
    assert (K2 : forall x, is_Some (image !! x) -> In x (map fst (map_to_list image))) by (intros; apply K; auto).
    clear K. revert M K1 K2. generalize (map fst (map_to_list image)). intros l M K1 K2.
    split.
    - clear K2. induction M as [|x e l es Hx M IH]; constructor.
      + assert (Hs : is_Some (image !! x)) by (apply K1; left; auto).
        assert (Hu : u32 x) by (destruct Hs as [v Hv]; apply (Him _ _ Hv)).
        rewrite land_key in Hx by auto.
        destruct (load_word image (key_of x)) as [w| |] eqn:W; cbn in Hx; try discriminate.
        injection Hx as <-. apply load_word_ok in W as ->. exists x. auto.
      + apply IH. intros; apply K1; right; auto.
    - intros x Hs. specialize (K2 x Hs).
      assert (Hu : u32 x) by (destruct Hs as [v Hv]; apply (Him _ _ Hv)). clear K1 Hs.
      induction M as [|y e l es Hy M IH]; [destruct K2|].
      destruct K2 as [->|K2].
      + exists e. split; [left; auto|]. rewrite land_key in Hy by auto.
        destruct (load_word image (key_of x)) as [w| |] eqn:W; cbn in Hy; try discriminate. injection Hy as <-. reflexivity.
      + destruct (IH K2) as (e' & ? & ?). exists e'. split; [right|]; auto. }
  destruct A as [A1 A2]. rewrite Forall_forall in A1.
  split.
  - intros L. apply last_at_In in L. destruct (A1 _ L) as (x & Hs & Hu & Hk & Hd). cbn [fst snd] in *. subst a d.
    unfold key_of, u32 in *. split; [lia|]. split; [|reflexivity].
    exists (x mod 4). split; [lia|]. replace (x / 4 * 4 + x mod 4) with x by lia. auto.
  - intros (Ha & (k & Hk & Hs) & ->).
    destruct (A2 _ Hs) as ([a' d'] & Hin & Hf). cbn in Hf.
    assert (Hkey : key_of (a + k) = a) by (unfold key_of; lia). rewrite Hkey in Hf. subst a'.
    destruct (last_at a es) as [d''|] eqn:L.
    + apply last_at_In in L. destruct (A1 _ L) as (x & _ & _ & Hk1 & Hd1). cbn [fst snd] in *. rewrite <- Hk1 in Hd1. congruence.
    + apply last_at_None in L. exfalso. apply L. apply in_map_iff. exists (a, d'). auto.
Qed.

(** ** ELF segments *)
Lemma counter_lookup bytes start a :
  last_at a (combine (map (fun i => start + Z.of_nat i) (seq 0 (length bytes))) bytes)
  = if (0 <=? a - start) && (a - start <? Z.of_nat (length bytes)) then Some (nth (Z.to_nat (a - start)) bytes 0) else None.
Proof.
  assert (G : forall bytes k,
    last_at a (combine (map (fun i => start + Z.of_nat i) (seq k (length bytes))) bytes)
    = if (Z.of_nat k <=? a - start) && (a - start <? Z.of_nat k + Z.of_nat (length bytes)) then Some (nth (Z.to_nat (a - start) - k) bytes 0) else None).
  { clear bytes. induction bytes as [|b bytes IH]; intros k; cbn [length seq map combine last_at].
    - destruct (Z.leb_spec (Z.of_nat k) (a - start)); cbn; auto.
      destruct (Z.ltb_spec (a - start) (Z.of_nat k + Z.of_nat 0)); auto. lia.
    - rewrite IH. 
      destruct (Z.leb_spec (Z.of_nat (S k)) (a - start)); cbn [andb].
      + destruct (Z.leb_spec (Z.of_nat k) (a - start)); [|lia]. cbn [andb].
        destruct (Z.ltb_spec (a - start) (Z.of_nat (S k) + Z.of_nat (length bytes)));
        destruct (Z.ltb_spec (a - start) (Z.of_nat k + Z.of_nat (S (length bytes)))); try lia.
        * replace (Z.to_nat (a - start) - k)%nat with (S (Z.to_nat (a - start) - S k)) by lia. reflexivity.
        * destruct (Z.eqb_spec (start + Z.of_nat k) a); auto. lia.
      + destruct (Z.eqb_spec (start + Z.of_nat k) a).
        * subst a. replace (start + Z.of_nat k - start) with (Z.of_nat k) by lia.
          destruct (Z.leb_spec (Z.of_nat k) (Z.of_nat k)); [|lia].
          destruct (Z.ltb_spec (Z.of_nat k) (Z.of_nat k + Z.of_nat (S (length bytes)))); [|lia].
          replace (Z.to_nat (Z.of_nat k) - k)%nat with 0%nat by lia. reflexivity.
        * destruct (Z.leb_spec (Z.of_nat k) (a - start)); cbn [andb]; auto. 
          destruct (Z.ltb_spec (a - start) (Z.of_nat k + Z.of_nat (S (length bytes)))); auto. lia. }
  rewrite G. change (Z.of_nat 0) with 0. rewrite Z.add_0_l, Nat.sub_0_r. reflexivity.
Qed.

Lemma segment_bytes_lookup input h l a : seg_ok h -> segment_bytes input h = Ok l -> last_at a l = seg_byte input h a.
Proof.
  intros (Hv & Ho & Hf & Hm) E. unfold segment_bytes in E.
  destruct (Z.ltb_spec (Z.of_nat (length input)) (p_offset h + Z.min (p_filesz h) (p_memsz h))); [discriminate|].
  unfold counter_zip in E. destruct (_ <? _); [|discriminate]. injection E as <-.
  unfold u32 in *.
  rewrite counter_lookup. unfold seg_byte.
  set (mn := Z.min (p_filesz h) (p_memsz h)) in *. set (mx := Z.max (p_filesz h) (p_memsz h)) in *.
  assert (0 <= mn <= mx) by (unfold mn, mx; lia).
  assert (L1 : length (take (Z.to_nat mn) (drop (Z.to_nat (p_offset h)) input)) = Z.to_nat mn)
    by (rewrite take_length, drop_length; lia).
  rewrite app_length, L1, repeat_length.
  replace (Z.of_nat (Z.to_nat mn + Z.to_nat (mx - mn))) with mx by lia.
  destruct (Z.leb_spec 0 (a - p_vaddr h)); cbn [andb]; auto. destruct (Z.ltb_spec (a - p_vaddr h) mx); auto. f_equal.
  destruct (Z.ltb_spec (a - p_vaddr h) mn).
  - rewrite app_nth1 by (rewrite L1; lia).
    rewrite !nth_lookup, lookup_take, lookup_drop by lia. f_equal. f_equal. lia.
  - rewrite app_nth2 by (rewrite L1; lia). rewrite L1. apply nth_repeat.
Qed.

Lemma extract_lookup sel input segs m a : Forall seg_ok segs ->
  extract_elf_data sel input segs = Ok m -> m !! a = last_segment_byte sel input segs a.
Proof.
  intros HS E. unfold extract_elf_data in E. destruct (map_res _ _) as [ls| |] eqn:M; cbn in E; try discriminate.
  injection E as <-. apply map_res_ok in M. rewrite collect_map_lookup.
  revert ls M; induction HS as [|h segs Hh HS IH]; intros ls M.
  - cbn in M. inversion M; subst. reflexivity.
  - cbn [last_segment_byte]. rewrite filter_cons in M. destruct (decide _) as [D|D].
    + inversion M as [|? l ? ls' Hl M']; subst. cbn [concat]. rewrite last_at_app. rewrite (IH _ M').
      destruct (last_segment_byte sel input segs a); auto. 
      destruct (sel (p_flags h)); [|destruct D]. apply segment_bytes_lookup; auto.
    + rewrite (IH _ M). destruct (sel (p_flags h)); [destruct D; exact I|]. destruct (last_segment_byte sel input segs a); auto.
Qed.

Lemma seg_bytes_fit input h l : seg_ok h -> segment_bytes input h = Ok l ->
  p_vaddr h + Z.max (p_filesz h) (p_memsz h) < 4294967296 - 1 /\ p_offset h + Z.min (p_filesz h) (p_memsz h) <= Z.of_nat (length input).
Proof.
  intros (Hv & Ho & Hf & Hm) E. unfold segment_bytes in E. unfold u32 in *.
  destruct (Z.ltb_spec (Z.of_nat (length input)) (p_offset h + Z.min (p_filesz h) (p_memsz h))); [discriminate|].
  unfold counter_zip in E.
  assert (L1 : length (take (Z.to_nat (Z.min (p_filesz h) (p_memsz h))) (drop (Z.to_nat (p_offset h)) input)) = Z.to_nat (Z.min (p_filesz h) (p_memsz h)))
    by (rewrite take_length, drop_length; lia).
  rewrite app_length, L1, repeat_length in E.
  match type of E with (if ?c then _ else _) = _ => destruct c eqn:C; [|discriminate] end. apply Z.ltb_lt in C. lia.
Qed.

Lemma extract_ok sel input segs m : Forall seg_ok segs -> Forall u8 input ->
  extract_elf_data sel input segs = Ok m -> image_ok m.
Proof.
  intros HS HI E a b L. rewrite (extract_lookup _ _ _ _ _ HS E) in L.
  unfold extract_elf_data in E. destruct (map_res _ _) as [ls| |] eqn:M; cbn in E; try discriminate.
  apply map_res_ok in M. clear E. revert ls M L. induction HS as [|h segs Hh HS IH]; intros ls M L; cbn in L; [discriminate|].
  rewrite filter_cons in M. destruct (decide _) as [D|D].
  - inversion M as [|? l ? ls' Hl M']; subst. destruct (last_segment_byte sel input segs a) as [b'|].
    + injection L as <-. eapply IH; eauto.
    + destruct (sel (p_flags h)); [|destruct D]. apply seg_bytes_fit in Hl; auto. destruct Hh as (Hv & Ho & Hf & Hm).
      unfold seg_byte in L. unfold u32 in *. destruct (Z.leb_spec 0 (a - p_vaddr h)); cbn [andb] in L; [|discriminate].
      destruct (Z.ltb_spec (a - p_vaddr h) (Z.max (p_filesz h) (p_memsz h))); [|discriminate]. split; [lia|].
      destruct (_ <? _); injection L as <-; [|unfold u8; lia].
      rewrite nth_lookup. destruct (input !! _) eqn:Ei; cbn; [|unfold u8; lia]. eapply Forall_lookup_1; eauto.
  - destruct (last_segment_byte sel input segs a) as [b'|] eqn:L'.
    + eapply IH; eauto.
    + destruct (sel (p_flags h)); [destruct D; exact I|discriminate].
Qed.

(** ** Whole program *)
Lemma last_segment_ext f g input segs a : (forall z, f z = g z) -> last_segment_byte f input segs a = last_segment_byte g input segs a.
Proof. intros H. induction segs as [|h r IH]; cbn; auto. rewrite IH, H. reflexivity. Qed.
Lemma is_ro_flags f : is_ro f = ro_flags f.
Proof.
  unfold is_ro, ro_flags.
  assert (B : forall n, 0 <= n -> Z.land f (2 ^ n) = if Z.testbit f n then 2 ^ n else 0).
  { intros n Hn. apply Z.bits_inj'. intros k Hk. rewrite Z.land_spec, Z.pow2_bits_eqb by lia.
    destruct (Z.eqb_spec n k) as [->|].
    - rewrite andb_true_r. destruct (Z.testbit f k) eqn:T; [rewrite Z.pow2_bits_eqb by lia; rewrite Z.eqb_refl; auto|rewrite Z.bits_0; auto].
    - rewrite andb_false_r. destruct (Z.testbit f n); [rewrite Z.pow2_bits_eqb by lia; symmetry; apply Z.eqb_neq; auto|rewrite Z.bits_0; auto]. }
  pose proof (B 2 ltac:(lia)) as B2. pose proof (B 1 ltac:(lia)) as B1. change (2 ^ 2) with 4 in B2. change (2 ^ 1) with 2 in B1.
  rewrite B1, B2. destruct (Z.testbit f 2), (Z.testbit f 1); reflexivity.
Qed.
Lemma is_x_flags f : is_x f = x_flags f.
Proof.
  unfold is_x, x_flags. change 1 with (Z.ones 1). rewrite Z.land_ones by lia. rewrite Z.bit0_odd.
  change (Z.ones 1) with 1. change (2 ^ 1) with 2. rewrite Zmod_odd. destruct (Z.odd f); reflexivity.
Qed.

Lemma load_program_inv e input p : load_program e input = Ok p ->
  exists segs ro rw x c, e_segments e = Some segs /\ e_class32 e = true /\ e_machine e = 243 /\ e_type e = 2 /\
    e_entry e < 4294967296 /\ e_entry e mod 4 = 0 /\ (length segs <= 256)%nat /\
    extract_elf_data is_ro input segs = Ok ro /\ extract_elf_data is_rw input segs = Ok rw /\
    extract_elf_data is_x input segs = Ok x /\ code_from x = Ok c /\ p = mkProgram (e_entry e) ro rw c.
Proof.
  unfold load_program, validate_elf.
  destruct (e_class32 e) eqn:H1; cbn [negb]; [|discriminate].
  destruct (Z.eqb_spec (e_machine e) 243); cbn [negb]; [|discriminate].
  destruct (Z.eqb_spec (e_type e) 2); cbn [negb]; [|discriminate].
  destruct (Z.ltb_spec (e_entry e) 4294967296); cbn [negb]; [|discriminate].
  destruct (Z.eqb_spec (e_entry e mod 4) 0); cbn [negb]; [|discriminate].
  destruct (e_segments e) as [segs|]; [|discriminate].
  destruct (Nat.ltb_spec 256 (length segs)); [discriminate|]. cbn [rbind fst snd]. unfold internal_load_elf.
  destruct (extract_elf_data is_ro input segs) as [ro| |] eqn:E1; cbn [rbind]; try discriminate.
  destruct (extract_elf_data is_rw input segs) as [rw| |] eqn:E2; cbn [rbind]; try discriminate.
  destruct (extract_elf_data is_x input segs) as [x| |] eqn:E3; cbn [rbind]; try discriminate.
  destruct (code_from x) as [c| |] eqn:E4; cbn [rbind]; try discriminate.
  intros [= <-]. exists segs, ro, rw, x, c. auto 20.
Qed.

Lemma load_program_image e input p segs : e_segments e = Some segs -> Forall seg_ok segs -> Forall u8 input ->
  load_program e input = Ok p ->
  (forall a, ro_memory p !! a = last_segment_byte ro_flags input segs a) /\
  (forall a, rw_memory p !! a = last_segment_byte rw_flags input segs a) /\
  entry_point p = e_entry e /\
  (forall a d, ro_code p !! a = Some d <->
     a mod 4 = 0 /\ (exists k, 0 <= k < 4 /\ last_segment_byte x_flags input segs (a + k) <> None) /\
     d = decode_instruction a (word_at (last_segment_byte x_flags input segs) a)).
Proof.
  intros ES HS HI E. destruct (load_program_inv _ _ _ E) as (segs' & ro & rw & x & c & ES' & _ & _ & _ & _ & _ & _ & E1 & E2 & E3 & E4 & ->).
  rewrite ES in ES'. injection ES' as <-. cbn.
  split; [|split; [|split; [reflexivity|]]].
  - intros a. rewrite (extract_lookup _ _ _ _ a HS E1). apply last_segment_ext, is_ro_flags.
  - intros a. apply (extract_lookup _ _ _ _ a HS E2).
  - assert (L : forall a, x !! a = last_segment_byte x_flags input segs a).
    { intros a. rewrite (extract_lookup _ _ _ _ a HS E3). apply last_segment_ext, is_x_flags. }
    assert (W : forall a, image_word x a = word_at (last_segment_byte x_flags input segs) a).
    { intros a. unfold image_word, word_at. rewrite !L. change (2^8) with 256. change (2^16) with 65536. change (2^24) with 16777216.
      unfold default. reflexivity. }
    intros a d. rewrite (code_from_entries x c (extract_ok _ _ _ _ HS HI E3) E4 a d), W.
    split; intros (A & (k & Hk & B) & C); (split; [exact A|split; [exists k; split; [exact Hk|]|exact C]]).
    + rewrite <- L. destruct B as [b ->]. discriminate.
    + rewrite <- L in B. destruct (x !! (a + k)); [eauto|congruence].
Qed.
Lemma load_program_fits e input p segs : e_segments e = Some segs -> Forall seg_ok segs ->
  load_program e input = Ok p ->
  Forall (fun h => ro_flags (p_flags h) || rw_flags (p_flags h) || x_flags (p_flags h) = true ->
    p_vaddr h + Z.max (p_filesz h) (p_memsz h) < 4294967296 - 1 /\
    p_offset h + Z.min (p_filesz h) (p_memsz h) <= Z.of_nat (length input)) segs.
Proof.
  intros ES HS E. destruct (load_program_inv _ _ _ E) as (segs' & ro & rw & x & c & ES' & _ & _ & _ & _ & _ & _ & E1 & E2 & E3 & _).
  rewrite ES in ES'. injection ES' as <-.
  assert (G : forall sel m, extract_elf_data sel input segs = Ok m -> forall h, h ∈ segs -> sel (p_flags h) = true ->
     p_vaddr h + Z.max (p_filesz h) (p_memsz h) < 4294967296 - 1 /\ p_offset h + Z.min (p_filesz h) (p_memsz h) <= Z.of_nat (length input)).
  { intros sel m Em h Hh Hsel. unfold extract_elf_data in Em. destruct (map_res _ _) as [ls| |] eqn:M; cbn in Em; try discriminate.
    apply map_res_ok in M. 
    assert (Hin : h ∈ filter (fun h => Is_true (sel (p_flags h))) segs) by (apply elem_of_list_filter; split; [rewrite Hsel; exact I|auto]).
    apply elem_of_list_lookup in Hin as [k Hk]. destruct (Forall2_lookup_l _ _ _ _ _ M Hk) as (l & _ & El).
    eapply seg_bytes_fit; eauto. eapply Forall_forall; [apply HS|]. apply elem_of_list_In; auto. }
  apply Forall_forall. intros h Hh Hf. apply elem_of_list_In in Hh.
  apply orb_true_iff in Hf as [Hf|Hf]; [apply orb_true_iff in Hf as [Hf|Hf]|].
  - apply (G is_ro ro E1 h Hh). rewrite is_ro_flags; auto.
  - apply (G is_rw rw E2 h Hh). auto.
  - apply (G is_x x E3 h Hh). rewrite is_x_flags; auto.
Qed.
Lemma decode_instruction_ok a w i : u32 w -> decode_instruction a w = inl i -> instruction_ok i.
Proof. apply decode_ok. Qed.
Lemma load_program_good e input p segs : e_segments e = Some segs -> Forall seg_ok segs -> Forall u8 input -> 0 <= e_entry e ->
  load_program e input = Ok p -> good_program p.
Proof.
  intros ES HS HI HE E. destruct (load_program_inv _ _ _ E) as (segs' & ro & rw & x & c & ES' & _ & _ & _ & Hlt & _ & _ & E1 & E2 & E3 & E4 & ->).
  rewrite ES in ES'. injection ES' as <-. constructor; cbn.
  - unfold u32; lia.
  - eapply extract_ok; eauto.
  - eapply extract_ok; eauto.
  - intros a d Hd. apply (code_from_entries x c (extract_ok _ _ _ _ HS HI E3) E4 a d) in Hd as (_ & _ & ->).
    destruct (decode_instruction a (image_word x a)) eqn:D; [|exact I].
    eapply decode_ok; [|exact D]. apply image_word_u32. eapply extract_ok; eauto.
Qed.
