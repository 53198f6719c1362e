(** Proofs about pylvarray.Array. *)
From Coq Require Import List Arith ZArith Lia Bool.
From Verif Require Import Base BaseProofs Mem MemProofs BufferManipProofs PyBase PyArraysSpec Indexing IndexingSpec IndexingProofs Array ArraySpec GridSpec GridProofs PyArray PyArraySpec.
From Verif Require ArrayProofs ArrayProofs2 ArrayProofs3.
Import ListNotations.
Set Implicit Arguments.
Unset Strict Implicit.

(** ** Places *)
Lemma rank_nth ts : forall t k, NoDup ts -> nth_error ts k = Some t -> rank ts t = Some k.
Proof.
  induction ts as [|u ts IH]; intros t k N H; [destruct k; discriminate|]. inversion N as [|? ? Nu Nt]; subst. cbn [rank]. destruct k as [|k].
  - injection H as ->. destruct (list_eq_dec Nat.eq_dec t t); [reflexivity|congruence].
  - destruct (list_eq_dec Nat.eq_dec u t) as [->|_]; [destruct Nu; eapply nth_error_In; exact H|]. rewrite (IH t k Nt H). reflexivity.
Qed.
Lemma rank_none ts t : ~ In t ts -> rank ts t = None.
Proof.
  induction ts as [|u ts IH]; intros N; [reflexivity|]. cbn [rank]. destruct (list_eq_dec Nat.eq_dec u t) as [->|_]; [destruct N; left; reflexivity|].
  rewrite IH; [reflexivity|]. intros H. apply N. right. exact H.
Qed.

(** ** Indices of NumPy *)
Lemma np_index_norm n i : np_index n i = option_map Z.of_nat (norm n i).
Proof.
  unfold np_index, norm. destruct (in_ll i); cbn [negb andb]; [|reflexivity].
  destruct (Z.ltb_spec i (- Z.of_nat n)), (Z.leb_spec (Z.of_nat n) i), (Z.leb_spec 0 i), (Z.ltb_spec i (Z.of_nat n)), (Z.ltb_spec i 0), (Z.leb_spec 0 (i + Z.of_nat n));
    cbn [orb andb option_map]; try lia; try reflexivity; f_equal; lia.
Qed.
Fixpoint pdot (bs : list Z) (js : list nat) : Z :=
  match bs, js with b :: bs', j :: js' => (Z.of_nat j * b + pdot bs' js')%Z | _, _ => 0%Z end.
Lemma np_part_norms idx : forall off dims bs, length bs = length dims ->
  np_part off dims bs idx = match norms dims idx with Some js => Some (off + pdot bs js, skipn (length js) dims, skipn (length js) bs)%Z | None => None end.
Proof.
  induction idx as [|i idx IH]; intros off dims bs L.
  - cbn. destruct bs, dims; try discriminate; cbn; repeat f_equal; lia.
  - destruct dims as [|n dims], bs as [|b bs]; try discriminate; [reflexivity|]. cbn [np_part norms]. rewrite np_index_norm.
    destruct (norm n i) as [j|]; cbn [option_map]; [|reflexivity]. rewrite IH by (simpl in L; congruence). destruct (norms dims idx) as [js|]; [|reflexivity].
    cbn [length skipn pdot]. rewrite Z.add_assoc. reflexivity.
Qed.
Lemma norm_lt n i j : norm n i = Some j -> j < n.
Proof.
  unfold norm. destruct (in_ll i); cbn [andb]; [|discriminate]. destruct (Z.leb_spec 0 i), (Z.ltb_spec i (Z.of_nat n)), (Z.ltb_spec i 0), (Z.leb_spec 0 (i + Z.of_nat n));
    cbn [andb]; intros E; try discriminate; injection E as <-; lia.
Qed.
Lemma norms_lt idx : forall dims js, norms dims idx = Some js -> Forall2 lt js (firstn (length js) dims) /\ length js = length idx /\ length js <= length dims.
Proof.
  induction idx as [|i idx IH]; intros dims js H.
  - assert (js = []) as -> by (destruct dims; cbn in H; congruence). cbn. split; [constructor|]. split; [reflexivity|lia].
  - destruct dims as [|n dims]; [discriminate|]. cbn [norms] in H. destruct (norm n i) as [j|] eqn:E; [|discriminate]. destruct (norms dims idx) as [ks|] eqn:Ek; [|discriminate].
    injection H as <-. destruct (IH _ _ Ek) as (A & B & C). cbn. split; [constructor; [eapply norm_lt; exact E|exact A]|]. split; lia.
Qed.
Lemma pdot_app bs : forall js ks, length js <= length bs -> pdot bs (js ++ ks) = (pdot bs js + pdot (skipn (length js) bs) ks)%Z.
Proof.
  induction bs as [|b bs IH]; intros js ks L.
  - destruct js; [|simpl in L; lia]. cbn. reflexivity.
  - destruct js as [|j js]; cbn [app length skipn pdot]; [lia|]. rewrite IH by (simpl in L; lia). lia.
Qed.
Lemma pdot_zdot sz ss : forall js, length ss = length js -> pdot (map (fun s => Z.of_nat s * sz)%Z ss) js = (sz * zdot ss (map Z.of_nat js))%Z.
Proof. induction ss as [|s ss IH]; intros [|j js] L; try discriminate; cbn [map pdot zdot]; [lia|]. rewrite IH by (simpl in L; congruence). lia. Qed.

Lemma skip_skip {A} (l : list A) n m : skipn m (skipn n l) = skipn (n + m) l.
Proof. revert l. induction n as [|n IH]; intros l; [reflexivity|]. destruct l; [rewrite !skipn_nil; reflexivity|]. cbn. apply IH. Qed.
(** Writing a slot of a block *)
Lemma holds_store V (b : buf V) vs p v : holds true b vs -> p < length b ->
  exists b', assign true b p v = Ok b' /\ length b' = length b /\ holds true b' (store_at vs p v).
Proof.
  intros H Hp. unfold assign, store, aget. destruct (nth_error b p) as [c|] eqn:Ec; [|apply nth_error_None in Ec; lia]. cbn [bind].
  exists (upd b p (Obj v)). split; [unfold aset; destruct (Nat.ltb_spec p (length b)); [destruct c; reflexivity|lia]|]. split; [apply upd_length|].
  destruct H as [k M]. unfold store_at. destruct (Nat.ltb_spec p (length vs)) as [A|A].
  - exists k. rewrite <- (firstn_skipn p vs) in M. destruct (skipn p vs) as [|x r] eqn:Er; [assert (Z := skipn_length p vs); rewrite Er in Z; cbn in Z; lia|].
    replace (skipn (S p) vs) with r.
    2:{ clear -Er. revert p Er. induction vs as [|y vs IH]; intros [|p] Er; cbn in *; try discriminate; [congruence|apply IH; exact Er]. }
    rewrite map_app in M. cbn [map] in M. rewrite <- app_assoc in M. cbn [app] in M. apply mem_split in M. destruct M as (bp & bc & bs & -> & M1 & _ & M2 & L).
    rewrite map_length, firstn_length, Nat.min_l in L by lia. subst p. rewrite upd_app by reflexivity. rewrite map_app. cbn [app map]. rewrite <- app_assoc. apply mem_mk; [exact M1|reflexivity|exact M2].
  - exists k. clear -M A. revert b p A M. induction vs as [|x vs IH]; intros b p A M.
    + cbn [map app] in *. clear A. revert b p M. induction k as [|k IH]; intros b p M; inversion M; subst; [destruct p; constructor|].
      destruct p as [|p]; cbn [upd repeat]; constructor; auto; [left; reflexivity|]. apply IH. assumption.
    + inversion M; subst. destruct p as [|p]; [cbn in A; lia|]. cbn [upd map app]. constructor; [assumption|]. apply IH; [cbn in A; lia|assumption].
Qed.
Section PyArray.
Variable V : Type.
Variable chk : bool.
Variable perm : list nat.
Variable dflt : V.
Hypothesis P : is_permutation perm (length perm).
Hypothesis NZ : 0 < length perm.
Variable safe : nat -> nat -> bool.
Variable conv : nat -> nat -> Z -> Z.
Variable longlong : nat.
Variable imax sz host : Z.
Hypothesis SZ : (0 < sz)%Z.
Notation step := (pa_step chk perm dflt safe conv longlong imax sz host).
Notation prun := (pa_run chk perm dflt safe conv longlong imax sz host).
Notation sstep := (spec_step perm dflt safe conv longlong imax sz host).
Notation srun := (spec_run perm dflt safe conv longlong imax sz host).
Notation repr := (representable perm sz).
Notation bytes ss := (map (fun s => Z.of_nat s * sz)%Z ss).

Lemma rank_slot dims t : length dims = length perm -> Forall2 lt t dims -> rank (places perm dims) t = Some (lin (gather perm dims) (gather perm t)).
Proof. intros L F. apply rank_nth; [apply places_nodup; auto|apply places_nth; auto]. Qed.
Lemma byteStrides_ok ss : Forall (fun s => Z.of_nat s * sz < 2 ^ 63)%Z ss -> byteStrides sz ss = Ok (bytes ss).
Proof.
  induction 1 as [|s ss H F IH]; [reflexivity|]. cbn [byteStrides map]. rewrite Z.mod_small by (split; [nia|eapply Z.lt_trans; [exact H|reflexivity]]).
  rewrite error_if_ok by (apply Z.leb_gt; exact H). cbn [bind]. rewrite IH. reflexivity.
Qed.
Lemma repr_strides dims : length dims = length perm -> repr dims = true -> Forall (fun s => Z.of_nat s * sz < 2 ^ 63)%Z (calculateStrides perm dims).
Proof.
  intros L R. assert (Pd : is_permutation perm (length dims)) by (rewrite L; exact P). apply Forall_forall. intros s Hs.
  destruct (In_nth _ _ 0 Hs) as (d & Hd & <-). rewrite strides_length in Hd by exact Pd.
  destruct (perm_facts Pd) as (E & N & _). assert (Hin : In d perm).
  { destruct (perm_facts Pd) as (_ & _ & Q). apply Q. exact Hd. }
  destruct (In_nth _ _ 0 Hin) as (k & Hk & <-). rewrite strides_spec by (auto; lia).
  unfold representable in R. rewrite forallb_forall in R. apply Z.ltb_lt. apply (R k). apply in_seq. lia.
Qed.

(** ** The invariant *)
Definition vrel (block room : nat) (w : npview) (v : sview) : Prop :=
  w_block w = v_block v /\ w_write w = v_write v /\ length (v_dims v) = length perm /\ length (v_fixed v) <= length perm /\
  Forall2 lt (v_fixed v) (firstn (length (v_fixed v)) (v_dims v)) /\
  w_dims w = skipn (length (v_fixed v)) (v_dims v) /\ w_strides w = skipn (length (v_fixed v)) (bytes (calculateStrides perm (v_dims v))) /\
  w_off w = pdot (bytes (calculateStrides perm (v_dims v))) (v_fixed v) /\
  v_block v <= block /\ (v_block v = block -> extent_product (v_dims v) <= room).
Definition prel (s : pyarray V) (t : sarr V) : Prop :=
  exists a, r_array s = Some a /\ gok true perm a (s_grid t) /\ length (a_buf a) = s_room t /\ r_level s = s_level t /\ r_block s = s_block t /\
    Forall2 (vrel (s_block t) (s_room t)) (r_views s) (s_views t).
Lemma Forall2_impl' {A B} (R Q : A -> B -> Prop) l m : (forall x y, R x y -> Q x y) -> Forall2 R l m -> Forall2 Q l m.
Proof. intros H. induction 1; constructor; auto. Qed.
Lemma Forall2_nth {A B} (R : A -> B -> Prop) l m k : Forall2 R l m ->
  match nth_error l k, nth_error m k with Some x, Some y => R x y | None, None => True | _, _ => False end.
Proof. intros F. revert k. induction F; intros [|k]; cbn; auto. apply IHF. Qed.
Lemma strides_len dims : length dims = length perm -> length (calculateStrides perm dims) = length perm.
Proof. intros L. rewrite strides_length; [exact L|rewrite L; exact P]. Qed.

(** What a NumPy index gives *)
Lemma view_part block room w v idx : vrel block room w v ->
  match norms (v_shape v) idx with
  | None => np_part (w_off w) (w_dims w) (w_strides w) idx = None
  | Some js =>
      let t := v_fixed v ++ js in
      np_part (w_off w) (w_dims w) (w_strides w) idx =
        Some (pdot (bytes (calculateStrides perm (v_dims v))) t, skipn (length t) (v_dims v), skipn (length t) (bytes (calculateStrides perm (v_dims v)))) /\
      length t <= length perm /\ Forall2 lt t (firstn (length t) (v_dims v))
  end.
Proof.
  intros (B & W & L & Lf & F & D & S & O & _). assert (Ls : length (bytes (calculateStrides perm (v_dims v))) = length perm) by (rewrite map_length; apply strides_len; exact L).
  rewrite np_part_norms by (rewrite S, D, !skipn_length, L, Ls; reflexivity). unfold v_shape. rewrite D.
  destruct (norms (skipn (length (v_fixed v)) (v_dims v)) idx) as [js|] eqn:E; [|reflexivity].
  destruct (norms_lt E) as (Fj & _ & Lj). rewrite skipn_length, L in Lj. cbn zeta. split; [|split].
  - rewrite O, S, pdot_app by (rewrite Ls; exact Lf). rewrite app_length, !skip_skip. reflexivity.
  - rewrite app_length. lia.
  - rewrite app_length. replace (firstn (length (v_fixed v) + length js) (v_dims v)) with (firstn (length (v_fixed v)) (v_dims v) ++ firstn (length js) (skipn (length (v_fixed v)) (v_dims v))).
    + apply Forall2_app; assumption.
    + rewrite <- (firstn_skipn (length (v_fixed v)) (v_dims v)) at 3. rewrite firstn_app, firstn_firstn, firstn_length, L.
      rewrite (Nat.min_r (length (v_fixed v) + length js)) by lia. f_equal. f_equal. lia.
Qed.
Lemma off_slot dims t : length dims = length perm -> Forall2 lt t dims ->
  pdot (bytes (calculateStrides perm dims)) t = (Z.of_nat (lin (gather perm dims) (gather perm t)) * sz)%Z.
Proof.
  intros L F. assert (Pd : is_permutation perm (length dims)) by (rewrite L; exact P). pose proof (Forall2_len F) as Lt.
  rewrite pdot_zdot by (rewrite strides_length; auto). rewrite zdot_dot by (rewrite strides_length; auto). rewrite dot_strides by auto. lia.
Qed.
Lemma address_slot (s : pyarray V) w k : w_block w = r_block s -> address sz s w (Z.of_nat k * sz) = Ok k.
Proof.
  intros B. unfold address. rewrite B, Nat.eqb_refl. cbn [negb]. rewrite Z.mod_mul by lia. cbn [Z.eqb negb]. rewrite Z.div_mul by lia. apply to_ix_nat.
Qed.
Lemma slot_bound dims t : length dims = length perm -> Forall2 lt t dims -> lin (gather perm dims) (gather perm t) < extent_product dims.
Proof. intros L F. assert (Pd : is_permutation perm (length dims)) by (rewrite L; exact P). rewrite <- (gather_prod Pd). apply lin_bound, gather_lt; auto. Qed.
Lemma to_indices_ok ds : forallb (fun d => (0 <=? d) && (d <=? imax))%Z ds = true -> to_indices imax ds = Ok ds.
Proof.
  induction ds as [|d ds IH]; [reflexivity|]. cbn [forallb to_indices]. intros H. apply andb_true_iff in H. destruct H as [H1 H2]. apply andb_true_iff in H1.
  unfold to_index. rewrite error_if_ok by lia. cbn [bind]. rewrite IH by exact H2. reflexivity.
Qed.
Lemma to_indices_abort ds : forallb (fun d => (0 <=? d) && (d <=? imax))%Z ds = false -> to_indices imax ds = Abort.
Proof.
  induction ds as [|d ds IH]; [discriminate|]. cbn [forallb to_indices]. intros H. unfold to_index. destruct (Z.ltb_spec d 0), (Z.ltb_spec imax d); cbn [orb error_if bind]; try reflexivity.
  rewrite IH; [reflexivity|]. destruct (Z.leb_spec 0 d), (Z.leb_spec d imax); try lia. exact H.
Qed.
Lemma vrel_after block room room' v : forall w, vrel block room w v -> vrel (if room' =? room then block else S block) room' w v.
Proof.
  intros w (B & W & L & Lf & F & D & S & O & Bl & R). repeat (split; [assumption|]). destruct (Nat.eqb_spec room' room) as [->|N].
  - auto.
  - split; [lia|]. intros Q. lia.
Qed.
Lemma do_ok s t a c : prel s t -> r_array s = Some a -> static_ok (length perm) c ->
  match grid_step perm dflt c (s_grid t) with
  | Some g' =>
      let room := room_after c g' (s_room t) in
      exists s', do chk perm dflt s a c = Ok (s', RNone) /\
        prel s' (mkS g' room (s_level t) (if room =? s_room t then s_block t else S (s_block t)) (s_views t))
  | None => True
  end.
Proof.
  intros (a0 & E & G & Ro & Le & Bl & Vs) Ea SO. rewrite E in Ea. injection Ea as ->. destruct (grid_step perm dflt c (s_grid t)) as [g'|] eqn:X; [|exact I]. cbn zeta.
  destruct (step_gok chk P NZ G SO X) as (a' & E' & G' & C). unfold do. rewrite E'. cbn [bind]. eexists. split; [reflexivity|]. exists a'. cbn. rewrite Ro in C.
  repeat (split; [solve [auto]|]). split; [rewrite C, Ro, Bl; reflexivity|].
  eapply Forall2_impl'; [|exact Vs]. intros w v. apply vrel_after.
Qed.
Lemma step_rel c s t : prel s t -> proper perm c ->
  match sstep c t with
  | Good t' r => exists s', step c s = Ok (s', r) /\ prel s' t'
  | Ends => step c s = Abort
  | Freed => step c s = Fault FDangling
  | _ => True
  end.
Proof.
  intros R Pr. pose proof R as (a & E & G & Ro & Le & Bl & Vs). pose proof (gok_len G) as Lg.
  assert (Raise : forall e, exists s', praise s e = Ok (s', RRaise e) /\ prel s' t) by (intros e; exists s; split; [reflexivity|exact R]).
  destruct c as [|d|n|obj| | |level space|k idx|k idx v|c]; cbn [pa_step spec_step]; rewrite ?E.
  - exists s. split; [|exact R]. destruct G as (_ & _ & ->). reflexivity.
  - rewrite Le. destruct (s_level t <? RESIZEABLE)%Z; [apply Raise|]. destruct (in_int d); cbn [negb]; [|apply Raise]. unfold plain.
    destruct (Z.ltb_spec d 0), (Z.leb_spec (Z.of_nat (length perm)) d), (Z.leb_spec 0 d), (Z.ltb_spec d (Z.of_nat (length perm))); cbn [orb andb]; try lia; try apply Raise.
    pose proof (do_ok (c := NSetIndex d) R E I) as D. destruct (grid_step perm dflt (NSetIndex d) (s_grid t)); [exact D|exact I].
  - rewrite Le. destruct (s_level t <? RESIZEABLE)%Z; [apply Raise|]. destruct (in_ll n); cbn [negb]; [|apply Raise].
    destruct (Z.ltb_spec n 0); [apply Raise|]. unfold to_index. destruct (Z.ltb_spec n 0); [lia|]. destruct (Z.ltb_spec imax n); cbn [orb error_if bind]; [reflexivity|].
    pose proof (do_ok (c := NResize1 n) R E I) as D. destruct (grid_step perm dflt (NResize1 n) (s_grid t)); [exact D|exact I].
  - rewrite Le. destruct (s_level t <? RESIZEABLE)%Z; [apply Raise|]. destruct (parseNumPyArray safe conv longlong obj) as [ds|e]; [|apply Raise].
    destruct (length ds =? length perm); cbn [negb]; [|apply Raise]. destruct (forallb _ ds) eqn:F.
    + rewrite to_indices_ok by exact F. cbn [bind]. pose proof (do_ok (c := NResize ds) R E I) as D. destruct (grid_step perm dflt (NResize ds) (s_grid t)); [exact D|exact I].
    + rewrite to_indices_abort by exact F. reflexivity.
  - destruct (repr (g_dims (s_grid t))) eqn:Rp; [|exact I]. pose proof G as ((_ & Sa & _) & Da & _). unfold toNumPy. rewrite Sa, Da, byteStrides_ok by (apply repr_strides; assumption). cbn [bind].
    eexists. split; [cbn; rewrite Le, (Forall2_len Vs); reflexivity|]. exists a. cbn. repeat (split; [solve [auto]|]). apply Forall2_app; [exact Vs|]. constructor; [|constructor].
    rewrite Bl. unfold vrel. cbn. repeat (split; [solve [auto; lia]|]). split; [destruct (bytes (calculateStrides perm (g_dims (s_grid t)))); reflexivity|]. split; [lia|]. intros _. change (prod (g_dims (s_grid t)) <= s_room t). rewrite <- (gok_vals G), <- Ro.
    destruct G as ((_ & _ & _ & _ & H) & _). apply (holds_cap H).
  - exists s. split; [rewrite Le; reflexivity|exact R].
  - set (sp := match space with Some p => p | None => host end). destruct (in_int level && in_int sp)%bool; cbn [negb]; [|apply Raise].
    destruct (sp =? host)%Z; cbn [negb]; [|apply Raise]. eexists. split; [reflexivity|]. exists a. cbn. auto 8.
  - pose proof (Forall2_nth k Vs) as Hk. destruct (nth_error (r_views s) k) as [w|], (nth_error (s_views t) k) as [v|]; try contradiction; [|apply Raise].
    pose proof (view_part idx Hk) as Vp. destruct (norms (v_shape v) idx) as [js|]; [|rewrite Vp; apply Raise]. cbn zeta in Vp. set (tt := v_fixed v ++ js) in *.
    destruct Vp as (Np & Lt & Ft). rewrite Np. pose proof Hk as (B & W & L & Lf & F & D & S & O & Bv & Rv).
    destruct (Nat.ltb_spec (length tt) (length perm)) as [A|A].
    + destruct (skipn (length tt) (v_dims v)) as [|x l] eqn:Q.
      { exfalso. assert (Z := skipn_length (length tt) (v_dims v)). rewrite Q, L in Z. cbn in Z. lia. }
      eexists. split; [cbn; rewrite W, (Forall2_len Vs); reflexivity|]. exists a. cbn. repeat (split; [solve [auto]|]). apply Forall2_app; [exact Vs|]. constructor; [|constructor].
      unfold vrel. cbn. repeat (split; [solve [auto]|]). exact Rv.
    + assert (Lp : length tt = length perm) by lia. rewrite Lp in *. rewrite <- L, skipn_all. rewrite <- L, firstn_all in Ft. rewrite off_slot by assumption. rewrite rank_slot by assumption.
      destruct (Nat.eqb_spec (v_block v) (s_block t)) as [Eb|Nb]; cbn [negb].
      * rewrite address_slot by congruence. cbn [bind deref]. destruct (nth_error (g_vals (s_grid t)) _) as [x|] eqn:Nx; [|exact I]. pose proof G as ((_ & _ & _ & _ & H) & _).
        erewrite holds_rd; [|exact H|exact Nx]. cbn [bind]. exists s. split; [reflexivity|exact R].
      * unfold address. rewrite B, Bl. destruct (Nat.eqb_spec (v_block v) (s_block t)); [congruence|]. reflexivity.
  - pose proof (Forall2_nth k Vs) as Hk. destruct (nth_error (r_views s) k) as [w|], (nth_error (s_views t) k) as [vw|]; try contradiction; [|apply Raise].
    pose proof Hk as (B & W & L & Lf & F & D & S & O & Bv & Rv). rewrite W. destruct (v_write vw); cbn [negb]; [|apply Raise].
    pose proof (view_part idx Hk) as Vp. destruct (norms (v_shape vw) idx) as [js|]; [|rewrite Vp; apply Raise]. cbn zeta in Vp. set (tt := v_fixed vw ++ js) in *.
    destruct Vp as (Np & Lt & Ft). rewrite Np. destruct (Nat.eq_dec (length tt) (length perm)) as [Lp|Lp].
    + rewrite Lp in *. rewrite <- L, skipn_all. rewrite <- L, firstn_all in Ft. rewrite off_slot by assumption. rewrite rank_slot by assumption.
      destruct (Nat.eqb_spec (v_block vw) (s_block t)) as [Eb|Nb]; cbn [negb].
      * rewrite address_slot by congruence. cbn [bind deref]. pose proof G as ((La & Sa & Rx & Lv & H) & Da & Ra).
        destruct (holds_store (p := lin (gather perm (v_dims vw)) (gather perm tt)) v H) as (b' & Eb' & Lb' & Hb').
        { rewrite Ro. eapply Nat.lt_le_trans; [apply slot_bound; assumption|]. apply Rv. exact Eb. }
        rewrite Eb'. cbn [bind]. eexists. split; [reflexivity|]. eexists. cbn. split; [reflexivity|]. split; [|cbn [a_buf]; rewrite Lb'; auto].
        split; [|split; assumption]. repeat split; auto. cbn. unfold store_at. destruct (Nat.ltb_spec (lin (gather perm (v_dims vw)) (gather perm tt)) (length (g_vals (s_grid t)))); [|exact Lv].
        rewrite !app_length, firstn_length, skipn_length. cbn [length]. change (fold_right Nat.mul 1 (a_dims a)) with (prod (a_dims a)). lia.
      * unfold address. rewrite B, Bl. destruct (Nat.eqb_spec (v_block vw) (s_block t)); [congruence|]. reflexivity.
    + rewrite rank_none; [exact I|]. rewrite places_in by assumption. intros Q. apply Forall2_len in Q. congruence.
  - pose proof (do_ok R E Pr) as Dd. destruct (grid_step perm dflt c (s_grid t)); [exact Dd|exact I].
Qed.
Lemma run_rel h : forall s t t' rs, prel s t -> Forall (proper perm) h -> srun h t = Some (t', rs) -> exists s', prun h s = Ok (s', rs) /\ prel s' t'.
Proof.
  induction h as [|c h IH]; intros s t t' rs R F H; cbn [pa_run spec_run] in *.
  - injection H as <- <-. exists s. auto.
  - inversion F; subst. pose proof (step_rel R H2) as S. destruct (sstep c t) as [t1 r| | | | |]; try discriminate. destruct S as (s1 & E1 & R1).
    destruct (srun h t1) as [[t2 rs2]|] eqn:E2; [|discriminate]. injection H as <- <-. destruct (IH _ _ _ _ R1 H3 E2) as (s2 & E3 & R3).
    exists s2. rewrite E1. cbn [bind]. rewrite E3. cbn [bind]. auto.
Qed.
End PyArray.
