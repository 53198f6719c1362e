(** What an exception leaves of a CRSMatrix: the insertions. *)
From Coq Require Import List Arith ZArith Lia Bool Sorting.Sorted.
From Verif Require Import Base BaseProofs Mem MemProofs ArrayManipProofs BufferManip BufferManipProofs
  Sorted SortedSpec SortedProofs SortedProofs2 SortedProofs3 SortedArraySpec AoA AoASpec AoALayout AoAProofs AoAProofs2 AoAProofs4
  AoS AoSSpec SetsProofs SetsProofs2 AoSProofs Sparsity SparsitySpec SparsityProofs CRS CRSSpec CRSProofs CRSProofs2 CRSProofs3.
From Verif Require Import Throw ThrowProofs ThrowAoASpec ThrowAoAProofs5 ThrowSorted ThrowSortedSpec ThrowSortedProofs2 ThrowSets ThrowSetsProofs
  ThrowCRS ThrowCRSSpec ThrowCRSProofs ThrowCRSProofs2 ThrowCRSProofs3.
From Verif Require ArrayManip IndexingProofs CRSProofs4 ThrowSetsProofs3.
Import ListNotations.
Set Implicit Arguments.
Unset Strict Implicit.

(** What is said about the budget and about the state an element leaves behind; the results are those of CRS.v, ThrowCRSProofs3.sim_cstep. *)
Definition weak {A X} (x : xout A X) (Q : nat -> Prop) (T : X -> Prop) : Prop :=
  match x with XOk n _ => Q n | XThrow Element t => T t | _ => True end.
Lemma weak_bind {A B X} (m : xout A X) (k : nat -> A -> xout B X) (Q Q' : nat -> Prop) T :
  weak m Q T -> (forall n a, Q n -> weak (k n a) Q' T) -> weak (xbind m k) Q' T.
Proof. destruct m as [|[]|]; simpl; auto. Qed.
Lemma weak_lift {A X} n (t : X) (m : outcome A) (Q : nat -> Prop) T : Q n -> weak (xlift n t m) Q T.
Proof. destruct m; simpl; auto. Qed.
Lemma weak_left {A X Y} (f : X -> Y) (m : xout A X) Q (T : Y -> Prop) : weak m Q (fun x => T (f x)) -> weak (xleft f m) Q T.
Proof. destruct m as [|[]|]; simpl; auto. Qed.
Lemma weak_mono {A X} (m : xout A X) (Q Q' : nat -> Prop) (T T' : X -> Prop) : weak m Q T -> (forall n, Q n -> Q' n) -> (forall t, T t -> T' t) -> weak m Q' T'.
Proof. destruct m as [|[]|]; simpl; auto. Qed.
Lemma weak_spec {A X} (m : xout A X) (Q : nat -> Prop) (T : X -> Prop) : xspec m (fun n _ => Q n) (fun w t => w = Element /\ T t) -> weak m Q T.
Proof. destruct m as [|[]|]; simpl; auto; tauto. Qed.

Section Insertions.
Variable W : Type.
Variable chk : bool.
Notation P := (Z * W)%type.
Notation fv := (@fst Z W).
Notation fw := (@snd Z W).
Notation aoa := (aoa Z W).
Notation X := (aoa * nat)%type.
Notation matrix := (pattern W).
Notation row := (list P * nat)%type.
Notation rows_t := (list row).
Notation aok := (@aok P Z W fv fw true false true).
Notation iok := (@iok P Z W).
Notation rx := (@rx P Z W fv fw false true).
Notation pincr l := (StronglySorted (fun x y => (fst x <? fst y)%Z = true) l).
Notation LZs := (map (@LV Z)).
Notation LWs := (map (@LV W)).
Notation ent := (@ent P W fw).
Notation lrep := (@lrep W).
Notation missing A l := (filter (fun w => negb (present Z.eqb fv A (fst w))) l).
Notation torn := (@torn Z P X Z.ltb fv).
Implicit Types a : aoa.
Implicit Types A B L : rows_t.
Implicit Types M : list (list P).
Ltac same_cells := rewrite ?map_app; cbn [map repeat]; rewrite ?map_app; lapp; reflexivity.

(** ** The notifications *)
Lemma x_crs_ev_ok A es C B pc s l l' lt (x : X) nnz ws ev n :
  rx (eq LN) A es C B pc s l x -> length l' = length l -> length lt = length l ->
  (forall pw le sw b, Forall2 (ent (eq LN)) l le -> mem false b (pw ++ le ++ sw) ->
     xspec (x_entry_event chk false n nnz ws ev b (length pw))
       (fun n' b' => n = n' + 1 /\ exists le', Forall2 (ent (eq LN)) l' le' /\ mem false b' (pw ++ le' ++ sw))
       (fun w b' => w = Element /\ n = 0 /\ exists le', Forall2 (ent (eq LN)) lt le' /\ mem false b' (pw ++ le' ++ sw))) ->
  xspec (x_crs_ev chk false nnz ws n ev x)
    (fun n' x' => n = n' + 1 /\ rx (eq LN) A es C B pc s l' x')
    (fun w x' => w = Element /\ n = 0 /\ rx (eq LN) A es C B pc s lt x').
Proof.
  intros (q & -> & -> & LC & LE & I & D) El Et Hf. destruct (D eq_refl) as (Ee & le & q' & F & M). destruct x as [a e]. cbn [fst snd] in *.
  assert (G : forall l0 b', length l0 = length l -> (exists le', Forall2 (ent (eq LN)) l0 le' /\
      mem false b' (flat fw A ++ le' ++ repeat LN (C - length l) ++ flat fw B ++ repeat LN q')) ->
      rx (eq LN) A es C B (flat fv A) (repeat LN (C - length l) ++ flat fv B ++ repeat LN q) l0 (set_ents b' a, e)).
  { intros l0 b' E0 (le' & F' & M'). exists q. rewrite E0. split; auto. split; auto. split; auto. split; auto. split; [exact I|].
    intros _. split; [exact Ee|]. exists le', q'. split; auto. }
  unfold x_crs_ev. cbn [fst snd]. replace e with (length (flat fw A)) at 1 by (rewrite Ee, !flat_length; reflexivity).
  eapply xspec_bind; [apply xspec_left; eapply xspec_mono; [apply (Hf _ _ _ _ F M)| |]|].
  - intros n' b' H. exact H.
  - intros w b' (-> & -> & H). split; [reflexivity|]. split; [reflexivity|]. apply G; auto.
  - intros n' b' (-> & H). cbn [xspec]. split; [reflexivity|]. apply G; auto.
Qed.

Lemma x_ev_insert A C B es w : ev_insert_spec (mkXCB (fun _ _ => Abort) (x_crs_ev chk false (length es) [snd w])) (rx (eq LN) A es C B) w es.
Proof.
  intros n f1 g1 x pc s E R. cbn [xcb_ev]. eapply x_crs_ev_ok; [exact R|subst es; len|subst es; len|]. intros pw le sw b F M.
  apply Forall2_app_inv_l in F. destruct F as (l1 & l2 & F1 & F2 & ->). apply f2_some in F1. subst l1.
  apply (none_inv (n := 1)) in F2. subst l2. cbn [x_entry_event aget nth_error xlift xbind]. unfold x_am_emplace, ArrayManip.check_insert_bounds.
  rewrite !check_if_ok by (apply Nat.ltb_ge; subst es; rewrite app_length; lia). cbn [xlift xbind].
  destruct (@ArrayManipProofs.shiftUp_ok W chk false b pw (map fw f1) (map fw g1) 1 sw (length pw) (length es) (length f1)) as (b1 & E1 & M1).
  - eapply mem_cast; [exact M|]. subst es. same_cells.
  - reflexivity.
  - len.
  - subst es. len.
  - rewrite E1. cbn [xlift xbind].
    eapply xspec_mono; [eapply (@x_construct_spec W b1 (pw ++ LWs (map fw f1)) LN (LWs (map fw g1) ++ sw))| |].
    + eapply mem_cast; [exact M1|]. same_cells.
    + len.
    + simpl; auto.
    + intros n' b' (-> & _ & M2). split; [reflexivity|]. exists (LWs (map fw (f1 ++ w :: g1))). split; [apply some_f2|].
      eapply mem_cast; [exact M2|]. same_cells.
    + intros w0 t (-> & -> & ->). split; [reflexivity|]. split; [reflexivity|]. exists (LWs (map fw f1) ++ [LN] ++ LWs (map fw g1)). split.
      * apply Forall2_app; [apply some_f2|]. apply Forall2_app; [exact (none_f2 _ 1)|apply some_f2].
      * eapply mem_cast; [exact M1|]. same_cells.
Qed.
Lemma x_ev_set A C B es nnz ws : ev_set_spec (mkXCB (fun _ _ => Abort) (x_crs_ev chk false nnz (map fw ws))) (rx (eq LN) A es C B) ws.
Proof.
  intros n k w f1 g x pc s N Lk R. cbn [xcb_ev]. eapply x_crs_ev_ok; [exact R|len|len|]. intros pw le sw b F M. pose proof F as F0.
  apply Forall2_app_inv_l in F. destruct F as (l1 & l2 & F1 & F2 & ->). apply f2_some in F1. subst l1.
  inversion F2 as [|? c ? l3 Fc F3]; subst. simpl in Fc. subst c.
  cbn [x_entry_event]. rewrite (aget_fw N). cbn [xlift xbind].
  eapply xspec_mono; [eapply (@x_construct_spec W b (pw ++ LWs (map fw f1)) LN (l3 ++ sw))| |].
  - eapply mem_cast; [exact M|]. same_cells.
  - len.
  - simpl; auto.
  - intros n' b' (-> & _ & M2). split; [reflexivity|]. exists (LWs (map fw (f1 ++ [w])) ++ l3). split; [apply Forall2_app; [apply some_f2|exact F3]|].
    eapply mem_cast; [exact M2|]. same_cells.
  - intros w0 t (-> & -> & ->). split; [reflexivity|]. split; [reflexivity|]. eexists. split; [exact F0|exact M].
Qed.
Lemma x_ev_insertN A C B es nnz ws : ev_insertN_spec (mkXCB (fun _ _ => Abort) (x_crs_ev chk false nnz (map fw ws))) (rx (eq LN) A es C B) ws.
Proof.
  intros n k w nLeft f1 g1 h1 x pc s N R. cbn [xcb_ev]. eapply x_crs_ev_ok; [exact R|len|len|]. intros pw le sw b F M.
  apply Forall2_app_inv_l in F. destruct F as (l1 & l2 & F1 & F2 & ->). apply f2_some in F1. subst l1.
  apply Forall2_app_inv_l in F2. destruct F2 as (l3 & l4 & F2 & F3 & ->). apply none_inv in F2. apply f2_some in F3. subst l3 l4.
  cbn [x_entry_event].
  destruct (@ArrayManipProofs.shiftUp_ok W chk false b pw (map fw f1) (map fw g1) (S nLeft) (LWs (map fw h1) ++ sw) (length pw) (length f1 + length g1) (length f1)) as (b1 & E1 & M1).
  - eapply mem_cast; [exact M|]. same_cells.
  - reflexivity.
  - len.
  - len.
  - rewrite E1. cbn [xlift xbind]. rewrite (aget_fw N). cbn [xlift xbind]. rewrite sub_ix_ok by lia. cbn [xlift xbind].
    eapply xspec_mono; [eapply (@x_construct_spec W b1 (pw ++ LWs (map fw f1) ++ repeat LN nLeft) LN (LWs (map fw g1) ++ LWs (map fw h1) ++ sw))| |].
    + eapply mem_cast; [exact M1|]. rewrite repeat_snoc. same_cells.
    + len.
    + simpl; auto.
    + intros n' b' (-> & _ & M2). split; [reflexivity|]. exists (LWs (map fw f1) ++ repeat LN nLeft ++ LWs (map fw (w :: g1 ++ h1))). split.
      * apply Forall2_app; [apply some_f2|]. apply Forall2_app; [apply none_f2|apply some_f2].
      * eapply mem_cast; [exact M2|]. same_cells.
    + intros w0 t (-> & -> & ->). split; [reflexivity|]. split; [reflexivity|]. exists (LWs (map fw f1) ++ repeat LN (S nLeft) ++ LWs (map fw (g1 ++ h1))). split.
      * apply Forall2_app; [apply some_f2|]. apply Forall2_app; [apply none_f2|apply some_f2].
      * eapply mem_cast; [exact M1|]. same_cells.
Qed.

(** ** One row *)
Lemma present_map es c : present Z.eqb (fun v => v) (map fv es) c = present Z.eqb fv es c.
Proof. unfold present. induction es as [|e es IH]; simpl; auto. rewrite IH. reflexivity. Qed.
Lemma missing_map es ws : filter (fun w => negb (present Z.eqb (fun v => v) (map fv es) w)) (map fv ws) = map fv (missing es ws).
Proof. induction ws as [|w ws IH]; simpl; auto. rewrite present_map. destruct (present Z.eqb fv es (fst w)); simpl; rewrite IH; reflexivity. Qed.
Lemma map_incr es : pincr es -> StronglySorted (fun x y => (x <? y)%Z = true) (map fv es).
Proof. apply (map_key_incr Z.ltb fv). Qed.

Lemma x_ins_t (cb : xcallbacks Z X) a A es k B w C e0 n : aok a (A ++ (es, k) :: B) -> pincr es ->
  xcb_ev cb = x_crs_ev chk false (length es) [snd w] ->
  let news := missing es [w] in
  okb false (xcb_inc cb (length news) (vals a, (a, e0))) (inc_post true fv (rx (eq LN) A es C B) es (length news)) ->
  weak (x_insertIntoSetImpl chk true Z.ltb Z.eqb cb n a e0 (length A) (fst w))
    (fun n' => n = n' + length news)
    (fun t => n < length news /\ exists t', t = put_back t' /\ torn (rx (eq LN) A es C B) es news n t').
Proof.
  intros H I EV news Hi. pose proof H as [IK [Lv _]]. destruct (lay_row Lv) as [q M].
  unfold x_insertIntoSetImpl. rewrite (row_check chk IK). cbn [bind]. rewrite (row_size chk IK). cbn [bind].
  rewrite (row_values fv chk IK). cbn [bind xlift xbind fst snd].
  destruct Hi as [(r & Er & Pr)|[_ Er]].
  - eapply weak_bind; [apply weak_left|].
    + apply weak_spec. eapply xspec_mono; [eapply (@insert1_t Z P X chk Z.ltb Z.eqb fv zorder cb (rx (eq LN) A es C B) n (vals a) (a, e0) (flat fv A) _ es w _ _ r M I eq_refl eq_refl)| |].
      * intros n0 f1 g1 x p s E R. rewrite EV. exact (@x_ev_insert A C B es w n0 f1 g1 x p s E R).
      * exact Er.
      * exact Pr.
      * intros n' r' E. exact E.
      * intros why t (-> & Hn & Ht). split; [reflexivity|]. split; [exact Hn|]. exists t. split; [reflexivity|exact Ht].
    + intros n' [[b x] ok] ->. apply weak_lift. reflexivity.
  - rewrite (@x_insert1_fault Z X chk true Z.ltb Z.eqb zorder cb n (vals a) (a, e0) (flat fv A) (repeat LN k ++ flat fv B ++ repeat LN q) (map fv es) (fst w) (length (flat fv A)) (length es) FMove); auto.
    + exact Logic.I.
    + apply map_incr. exact I.
    + rewrite map_length. reflexivity.
    + change [fst w] with (map fv [w]). rewrite missing_map, map_length. exact Er.
Qed.
Lemma x_inss_t (cb : xcallbacks Z X) a A es k B ws C e0 n : aok a (A ++ (es, k) :: B) -> pincr es -> pincr ws ->
  xcb_ev cb = x_crs_ev chk false (length es) (map snd ws) ->
  let news := missing es ws in
  okb false (xcb_inc cb (length news) (vals a, (a, e0))) (inc_post true fv (rx (eq LN) A es C B) es (length news)) ->
  weak (x_insertsIntoSetImpl chk true Z.ltb Z.eqb cb n a e0 (length A) (map fst ws))
    (fun n' => n = n' + length news)
    (fun t => n < length news /\ exists t', t = put_back t' /\ torn (rx (eq LN) A es C B) es news n t').
Proof.
  intros H I Iw EV news Hi. pose proof H as [IK [Lv _]]. destruct (lay_row Lv) as [q M].
  unfold x_insertsIntoSetImpl. rewrite (row_check chk IK). cbn [bind]. rewrite (row_size chk IK). cbn [bind].
  rewrite (row_values fv chk IK). cbn [bind xlift xbind fst snd].
  destruct Hi as [(r & Er & Pr)|[_ Er]].
  - eapply weak_bind; [apply weak_left|].
    + apply weak_spec. eapply xspec_mono; [eapply (@inserts_t Z P X chk Z.ltb Z.eqb fv zorder cb (rx (eq LN) A es C B) n (vals a) (a, e0) (flat fv A) _ es ws _ _ r M I Iw eq_refl eq_refl)| |].
      * intros n0 j w f1 g x p s N L R. rewrite EV. exact (@x_ev_set A C B es (length es) ws n0 j w f1 g x p s N L R).
      * intros n0 j w nl f1 g1 h1 x p s N R. rewrite EV. exact (@x_ev_insertN A C B es (length es) ws n0 j w nl f1 g1 h1 x p s N R).
      * exact Er.
      * exact Pr.
      * intros n' r' E. exact E.
      * intros why t (-> & Hn & Ht). split; [reflexivity|]. split; [exact Hn|]. exists t. split; [reflexivity|exact Ht].
    + intros n' [[b x] ok] ->. apply weak_lift. reflexivity.
  - rewrite (@x_inserts_fault Z X chk true Z.ltb Z.eqb zorder cb n (vals a) (a, e0) (flat fv A) (repeat LN k ++ flat fv B ++ repeat LN q) (map fv es) (map fst ws) (length (flat fv A)) (length es) FMove); auto.
    + exact Logic.I.
    + apply map_incr. exact I.
    + apply map_incr. exact Iw.
    + rewrite map_length. reflexivity.
    + rewrite missing_map, map_length. exact Er.
Qed.

(** ** What is left *)
(** The rows [M]; those at and behind the gap [g] in its row may not be readable. *)
Definition keeps (p : matrix) M (nc : nat) (g : nat * nat) : Prop :=
  ncols p = nc /\ numArrays (rows p) = length M /\
  (forall i r, nth_error M i = Some r -> numNonZeros chk p i = Ok (length r)) /\
  (forall i r j e, nth_error M i = Some r -> nth_error r j = Some e -> i <> fst g \/ j < snd g ->
     column chk p i j = Ok (fst e) /\ entry chk p i j = Ok (snd e)).
Definition shows_all (p : matrix) M (nc : nat) : Prop :=
  ncols p = nc /\ numArrays (rows p) = length M /\
  (forall i r, nth_error M i = Some r -> numNonZeros chk p i = Ok (length r)) /\
  (forall i r j e, nth_error M i = Some r -> nth_error r j = Some e -> column chk p i j = Ok (fst e) /\ entry chk p i j = Ok (snd e)).
Definition left_c (st : state_left) (p : matrix) M (nc : nat) (g : nat * nat) : Prop :=
  match st with
  | Usable => lrep p (M, nc)
  | Forgets => crs_dtor chk false BMalloc p = Fault FLeak /\ shows_all p M nc
  | Corrupt => crs_dtor chk false BMalloc p = Fault FDestroy /\ keeps p M nc g
  end.

Lemma hurt_keeps t nc A r k B (A1 A2 : list P) D C : hurt t A r k B (LZs (map fv A1) ++ D) (LWs (map fw A1) ++ C) -> r = A1 ++ A2 ->
  keeps (mkSP t nc) (map fst (A ++ (r, k) :: B)) nc (length A, length A1).
Proof.
  intros H Er. pose proof H as (I & _). split; [reflexivity|]. cbn [rows]. split; [pose proof I as (N & _); rewrite N, map_length; reflexivity|]. split.
  - intros i x N. rewrite nth_error_map in N. destruct (nth_error (A ++ (r, k) :: B) i) as [y|] eqn:E; [|discriminate]. injection N as <-.
    exact (sizeOf_at chk I E).
  - intros i x j e N J G. rewrite nth_error_map in N. destruct (nth_error (A ++ (r, k) :: B) i) as [y|] eqn:E; [|discriminate]. injection N as <-.
    exact (hurt_reads chk nc H Er E J G).
Qed.
Lemma keeps_all p M nc i r : keeps p M nc (i, length r) -> nth_error M i = Some r -> shows_all p M nc.
Proof.
  intros (H1 & H2 & H3 & H4) N. split; [exact H1|]. split; [exact H2|]. split; [exact H3|]. intros j x m e Nj Nm. apply (H4 j x m e Nj Nm). cbn [fst snd].
  destruct (Nat.eq_dec j i) as [->|]; [right|left; auto]. rewrite N in Nj. injection Nj as <-. apply nth_error_Some. congruence.
Qed.

Lemma torn_left c A es k B Cap nc ws n t :
  let M := map fst (A ++ (es, k) :: B) in
  let news := missing es ws in
  Forall (fun l => pincr l) M -> mranged nc (as_maps M) ->
  asked Z.eqb c (map fv es) = map fv news ->
  torn (rx (eq LN) A es Cap B) es news n t -> n < length news ->
  exists v, nth_error (rev (asked Z.eqb c (map fv es))) n = Some v /\
    left_c (sleft Z.ltb Z.eqb c (map fv es) n) (mkSP (put_back t) nc) M nc (length A, number_less Z.ltb (map fv es) v).
Proof.
  intros M news FI G Ea (w & A1 & A2 & C & p & s & Nw & El & L1 & L2 & LC & Mv & D) Hn.
  assert (Nv : nth_error (rev (asked Z.eqb c (map fv es))) n = Some (fst w)) by (rewrite Ea, <- map_rev; apply (map_nth_error fv); exact Nw).
  exists (fst w). split; [exact Nv|]. unfold sleft. rewrite Nv.
  assert (EN : number_less Z.ltb (map fv es) (fst w) = length A1).
  { rewrite El, map_app, number_less_split, map_length; auto.
    - rewrite Forall_map. exact L1.
    - rewrite Forall_map. eapply Forall_impl; [|exact L2]. intros e He. apply Z.ltb_lt in He. apply Z.ltb_ge. lia. }
  rewrite EN, map_length. remember (length news) as m eqn:Em.
  assert (Les : length es = length A1 + length A2) by (rewrite El; apply app_length).
  assert (Hx : exists l, length l = length es + m /\ rx (eq LN) A es Cap B p s l (snd t) /\
     ((es <> [] /\ l = map Some A1 ++ repeat None (m - n) ++ map Some C) \/ (es = [] /\ l = map Some C ++ repeat None (m - n)))).
  { destruct D as [[NE R]|[E0 R]]; eexists; (split; [|split; [exact R|]]).
    - rewrite !app_length, !map_length, repeat_length. lia.
    - left. auto.
    - rewrite !app_length, !map_length, repeat_length. rewrite E0 in *. simpl in *. lia.
    - right. auto. }
  destruct Hx as (l & Ll & (q & -> & -> & LC1 & LC2 & IK & DD) & Dl). destruct (DD eq_refl) as (_ & le & q' & F & Me).
  assert (EM : M = map fst (A ++ (es, Cap - length es) :: B)) by (unfold M; rewrite !map_app; reflexivity).
  assert (H0 : hurt (put_back t) A es (Cap - length es) B
      (LZs (map fv A1) ++ repeat LN (m + length A2) ++ repeat LN (Cap - length l)) (le ++ repeat LN (Cap - length l))).
  { assert (Lle : length le = length l) by (symmetry; exact (IndexingProofs.Forall2_len F)). split; [exact IK|].
    split; [rewrite !app_length, !map_length, !repeat_length; lia|]. split; [rewrite app_length, repeat_length; lia|]. split.
    - exists q. eapply mem_cast; [exact Mv|]. lapp. auto.
    - exists q'. eapply mem_cast; [exact Me|]. lapp. auto. }
  assert (NL : nth_error M (length A) = Some es) by (rewrite EM, nth_error_map, nth_error_app2, Nat.sub_diag by lia; reflexivity).
  assert (US : n = 0 -> A2 = [] -> lrep (mkSP (put_back t) nc) (M, nc)).
  { intros -> E2. subst A2. rewrite app_nil_r in El. subst A1. destruct C; [|simpl in LC; lia]. exists (A ++ (es, Cap - length es) :: B).
    split; [|cbn [fst snd ncols]; auto]. cbn [rows]. apply hurt_aok. eapply hurt_cast; [exact H0| |].
    - f_equal. rewrite <- repeat_app_add. f_equal. simpl. lia.
    - assert (Ele : le = LWs (map fw es) ++ repeat LN m).
      { destruct Dl as [[_ ->]|[-> ->]].
        - apply Forall2_app_inv_l in F. destruct F as (l1 & l2 & F1 & F2 & ->). apply f2_some in F1. rewrite F1. f_equal.
          cbn [map] in F2. rewrite app_nil_r, Nat.sub_0_r in F2. apply none_inv in F2. exact F2.
        - cbn [map app] in F. rewrite Nat.sub_0_r in F. apply none_inv in F. exact F. }
      rewrite Ele, <- app_assoc. f_equal. rewrite <- repeat_app_add. f_equal. lia. }
  destruct (Nat.ltb_spec (length A1) (length es)) as [Hlt|Hge]; cbn [left_c].
  - destruct Dl as [[NE ->]|[E0 _]]; [|rewrite E0 in Hlt; simpl in Hlt; lia].
    apply Forall2_app_inv_l in F. destruct F as (l1 & l2 & F1 & F2 & ->). apply f2_some in F1. subst l1.
    apply Forall2_app_inv_l in F2. destruct F2 as (l3 & l4 & F2 & F3 & ->). apply none_inv in F2. subst l3.
    replace (m - n) with (S (m - n - 1)) in H0 by lia. cbn [repeat app] in H0. rewrite <- app_assoc in H0. cbn [app] in H0. split.
    + eapply dtor_corrupt; [exact H0|apply live_LVs|rewrite !map_length; exact Hlt].
    + rewrite EM. eapply hurt_keeps; [exact H0|exact El].
  - assert (A2 = []) as E2 by (destruct A2; auto; simpl in Les; lia).
    destruct (Nat.eqb_spec n 0) as [N0|N0]; cbn [left_c]; [apply US; auto|].
    subst A2. rewrite app_nil_r in El. subst A1. destruct C as [|e C]; [simpl in LC; lia|].
    assert (Hl : exists l1 l2, le ++ repeat LN (Cap - length l) = LWs (map fw es) ++ l1 ++ LV (fw e) :: l2).
    { destruct Dl as [[_ ->]|[E0 ->]].
      - apply Forall2_app_inv_l in F. destruct F as (l1 & l2 & F1 & F2 & ->). apply f2_some in F1. subst l1.
        apply Forall2_app_inv_l in F2. destruct F2 as (l3 & l4 & F2 & F3 & ->). apply f2_some in F3. subst l4. exists l3. eexists. cbn [map]. rewrite <- !app_assoc. cbn [app]. reflexivity.
      - apply Forall2_app_inv_l in F. destruct F as (l1 & l2 & F1 & F2 & ->). apply f2_some in F1. subst l1. rewrite E0. exists []. eexists. cbn [map app]. reflexivity. }
    destruct Hl as (l1 & l2 & Hl). rewrite Hl in H0. split.
    + eapply dtor_forgets; [exact H0|apply live_LVs|rewrite !map_length; reflexivity].
    + eapply keeps_all; [|exact NL]. rewrite EM. eapply (@hurt_keeps _ nc A es _ B es []); [exact H0|rewrite app_nil_r; reflexivity].
Qed.
End Insertions.
