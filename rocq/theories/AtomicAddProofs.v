(** The addToRow functions under every schedule. *)
From Coq Require Import List Arith ZArith Lia Bool Sorting.Sorted Permutation.
From Verif Require Import Base BaseProofs Mem MemProofs BufferManip
  Sorted SortedSpec SortedProofs SortedProofs2 SortedArraySpec AoA AoASpec AoALayout AoAProofs AoAProofs4
  AoS AoSSpec SetsProofs SetsProofs2 AoSProofs Sparsity SparsitySpec CRS CRSSpec CRSProofs2 CRSProofs3 Conc AtomicAdd AtomicProofs.
From Verif Require SparsityProofs.
Import ListNotations.
Set Implicit Arguments.
Unset Strict Implicit.

Section Add.
Variable W : Type.
Variables chk tw : bool.
Variable add : W -> W -> W.
Notation matrix := (pattern W).
Notation aoa := (aoa Z W).
Notation P := (Z * W)%type.
Notation fv := (@fst Z W).
Notation fw := (@snd Z W).
Notation row := (list P * nat)%type.
Notation rows_t := (list row).
Notation aok := (@aok P Z W fv fw true tw true).
Notation iok := (@iok P Z W).
Notation rowset := (@rowset P Z fv Z.ltb).
Notation mrep := (@mrep W tw).
Notation row_map := (row_map W).
Notation added := (added add).
Notation rowcall := (rowcall W).
Notation dthread := (place_add W * list rowcall)%type.
Notation zincr l := (StronglySorted (fun x y => (x <? y)%Z = true) l).
Implicit Types A B L : rows_t.
Implicit Types T : list dthread.

Definition to_row i (c : rowcall) : list P := if c_row c =? i then c_adds c else [].
Definition contrib i (q : list rowcall) : list P := flat_map (to_row i) q.
Definition all_contrib i (calls : list (list rowcall)) : list P := flat_map (contrib i) calls.

Section Inv.
Variable L0 : rows_t.
Variable M0 : list row_map.
Variable nc : nat.
Variable calls : list (list rowcall).
Definition keys i : list Z := match nth_error L0 i with Some x => map fv (fst x) | None => [] end.
Definition call_ok (c : rowcall) : Prop := c_row c < length L0 /\ (forall x, In x (map fst (c_adds c)) -> In x (keys (c_row c))) /\
  (c_how c <> HUnsorted -> zincr (map fst (c_adds c))).
Definition loop_ok h rw nnz columns entries cur (adds : list P) : Prop :=
  rw < length L0 /\ nnz = length (keys rw) /\ columns = total (firstn rw L0) /\ entries = total (firstn rw L0) /\
  (forall x, In x (map fst adds) -> In x (keys rw)) /\
  (h <> HUnsorted -> zincr (map fst adds) /\ forall x c, In x (firstn cur (keys rw)) -> In c (map fst adds) -> (x < c)%Z).
Definition thread_ok (t : dthread) : Prop :=
  Forall call_ok (snd t) /\
  match fst t with
  | AIdle => True
  | ALoop l adds => loop_ok (l_how l) (l_row l) (l_nnz l) (l_columns l) (l_entries l) (l_cur l) adds
  | AFound l pos v adds => pos < length (keys (l_row l)) /\
      loop_ok (l_how l) (l_row l) (l_nnz l) (l_columns l) (l_entries l) (pos + 1) adds
  end.
Definition pending1 i (t : dthread) : list P :=
  match fst t with
  | AIdle => []
  | ALoop l adds => if l_row l =? i then adds else []
  | AFound l pos v adds => if l_row l =? i then (nth pos (keys i) 0%Z, v) :: adds else []
  end ++ contrib i (snd t).
Definition pending i T : list P := flat_map (pending1 i) T.
Definition ainv (p : matrix) T : Prop := exists L (D : nat -> list P), aok (rows p) L /\ same_keys L0 L /\ ncols p = nc /\
  (forall i x S, nth_error L i = Some x -> nth_error M0 i = Some S -> rowset x (added (D i) S)) /\
  (forall i, Permutation (D i ++ pending i T) (all_contrib i calls)) /\ Forall thread_ok T.
Lemma sk_at L i x : same_keys L0 L -> nth_error L i = Some x -> exists x0, nth_error L0 i = Some x0 /\ map fv (fst x0) = map fv (fst x) /\ snd x0 = snd x.
Proof.
  intros S. revert i. induction S as [|y z L0' L' E S IH]; intros [|i] N; simpl in N; try discriminate.
  - injection N as <-. exists y. auto.
  - apply IH in N. exact N.
Qed.
Lemma sk_total L i : same_keys L0 L -> total (firstn i L0) = total (firstn i L).
Proof.
  intros S. revert i. induction S as [|y z L0' L' [E K] S IH]; intros [|i]; simpl; auto. rewrite IH. destruct (sk_wid E K) as [_ ->]. reflexivity.
Qed.
(** The row a thread works on. *)
Lemma at_row L i : same_keys L0 L -> i < length L0 ->
  exists A r k B, L = A ++ (r, k) :: B /\ length A = i /\ keys i = map fv r /\ total (firstn i L0) = length (flat fv A).
Proof.
  intros S Li. rewrite (sk_len S) in Li. destruct (nth_error L i) as [[r k]|] eqn:N; [|apply nth_error_None in N; lia].
  destruct (sk_at S N) as (x0 & N0 & E & _). pose proof (sk_total i S) as Et. apply nth_error_split in N. destruct N as (A & B & -> & <-).
  exists A, r, k, B. split; auto. split; auto. split; [unfold keys; rewrite N0; exact E|].
  rewrite Et, firstn_app, Nat.sub_diag, firstn_all, app_nil_r, flat_length. reflexivity.
Qed.
Lemma key_split (r : list P) c : In c (map fv r) -> exists f w g, r = f ++ (c, w) :: g.
Proof. intros H. apply in_map_iff in H. destruct H as ([c' w] & <- & H). apply in_split in H. destruct H as (f & g & ->). exists f, w, g. reflexivity. Qed.
Lemma zincr_nodup (l1 : list Z) c l2 j : zincr (l1 ++ c :: l2) -> nth_error (l1 ++ c :: l2) j = Some c -> j = length l1.
Proof.
  revert j. induction l1 as [|x l1 IH]; intros j I N; simpl in *; inversion I as [|y l I' F]; subst; destruct j as [|j]; simpl in N; auto.
  - exfalso. rewrite Forall_forall in F. apply nth_error_In in N. apply F in N. rewrite Z.ltb_irrefl in N. discriminate.
  - injection N as ->. exfalso. rewrite Forall_forall in F. assert (H : (c <? c)%Z = true) by (apply F, in_app_iff; simpl; auto). rewrite Z.ltb_irrefl in H. discriminate.
Qed.
Lemma search_ok p L (l : locals) c v adds : aok (rows p) L -> same_keys L0 L -> (forall i x, nth_error L i = Some x -> zincr (map fv (fst x))) ->
  loop_ok (l_how l) (l_row l) (l_nnz l) (l_columns l) (l_entries l) (l_cur l) ((c, v) :: adds) ->
  exists pos, search p l c = Ok pos /\ nth_error (keys (l_row l)) pos = Some c /\
    loop_ok (l_how l) (l_row l) (l_nnz l) (l_columns l) (l_entries l) (pos + 1) adds.
Proof.
  intros H S Hi (Lr & En & Ec & Ee & Ik & Hs). destruct (at_row S Lr) as (A & r & k & B & -> & El & Ek & Et).
  destruct H as [_ [Lv _]]. assert (Ir : zincr (map fv r)) by (apply (Hi (l_row l) (r, k)); rewrite <- El; apply nth_mid).
  destruct (@key_split r c) as (f & w & g & Er); [rewrite <- Ek; apply Ik; left; reflexivity|]. pose proof (f_equal (map fv) Er) as Km.
  assert (Ip : StronglySorted (fun x y : P => (fst x <? fst y)%Z = true) (f ++ (c, w) :: g)) by (apply (map_key_incr Z.ltb fv); rewrite <- Er; exact Ir).
  assert (Lk : length (keys (l_row l)) = length r) by (rewrite Ek, map_length; reflexivity).
  assert (Lf : length f < length r) by (rewrite Er, app_length; simpl; lia).
  assert (Le : l_how l <> HUnsorted -> l_cur l <= length f).
  { intros Nu. destruct (Hs Nu) as [_ Lo]. destruct (Nat.le_gt_cases (l_cur l) (length f)) as [|Gt]; auto. exfalso.
    assert (In c (firstn (l_cur l) (keys (l_row l)))).
    { rewrite Ek, Km, map_app, firstn_app. apply in_app_iff. right. rewrite map_length. replace (l_cur l - length f) with (Datatypes.S (l_cur l - length f - 1)) by lia. simpl. auto. }
    specialize (Lo c c H (or_introl eq_refl)). lia. }
  exists (length f). split; [|split].
  - unfold search. rewrite Ec, Et, En, Lk. destruct (l_how l) eqn:Eh.
    + eapply linear_key with (n := length f - l_cur l); eauto. specialize (Le ltac:(discriminate)). lia.
    + specialize (Le ltac:(discriminate)). rewrite sub_ix_ok by lia. cbn [bind]. rewrite (find_key Lv Km Ip Le). cbn [bind]. f_equal. lia.
    + eapply linear_key with (n := length f - l_cur l); eauto. specialize (Le ltac:(discriminate)). lia.
    + pose proof (find_key (j := 0) Lv Km Ip (Nat.le_0_l _)) as Fk. rewrite Nat.add_0_r, !Nat.sub_0_r in Fk. exact Fk.
  - rewrite Ek, Er, map_app, nth_error_app2 by (rewrite map_length; lia). rewrite map_length, Nat.sub_diag. reflexivity.
  - split; [exact Lr|]. split; [exact En|]. split; [exact Ec|]. split; [exact Ee|]. split; [intros x Hx; apply Ik; right; exact Hx|].
    intros Nu. destruct (Hs Nu) as [Iz Lo]. cbn [map fst] in Iz. inversion Iz as [|y z Iz' Fz]; subst. split; [exact Iz'|].
    intros x c' Hx Hc. rewrite Forall_forall in Fz. specialize (Fz c' Hc). apply Z.ltb_lt in Fz. rewrite Ek, map_app, firstn_app, map_length in Hx.
    replace (length f + 1 - length f) with 1 in Hx by lia. cbn [map firstn] in Hx.
    apply in_app_iff in Hx. destruct Hx as [Hx|[<-|[]]]; [|exact Fz].
    apply SparsityProofs.in_firstn in Hx. destruct (pincr_split Ip) as [Fl _]. apply in_map_iff in Hx. destruct Hx as (e & <- & He).
    rewrite Forall_forall in Fl. apply Fl in He. apply Z.ltb_lt in He. cbn in He. lia.
Qed.
Lemma added_app a b S e : added b (added a S) e <-> added (a ++ b) S e.
Proof.
  assert (Ef : forall c, contributions (a ++ b) c = contributions a c ++ contributions b c) by (intros c; unfold contributions; rewrite filter_app, map_app; reflexivity).
  unfold CRSSpec.added. rewrite Ef. cbn [fst snd]. split.
  - intros (w & (w0 & H & ->) & E). exists w0. rewrite fold_left_app. auto.
  - intros (w0 & H & E). rewrite fold_left_app in E. eexists. split; [exists w0; split; [exact H|reflexivity]|exact E].
Qed.

Hypothesis El0 : length L0 = length M0.
Lemma add_any_step p T1 t T2 : ainv p (T1 ++ t :: T2) -> oks (add_step chk tw add p t) (fun r => ainv (fst r) (T1 ++ snd r :: T2)).
Proof.
  intros (L & D & H & Sk & En & Hr & Pm & Ft). apply Forall_app in Ft. destruct Ft as [F1 F2]. inversion F2 as [|t' T2' Ht F2']; subst.
  assert (Stay : forall t', thread_ok t' -> (forall i, pending1 i t' = pending1 i t) -> ainv p (T1 ++ t' :: T2)).
  { intros t' Ok' Ep. exists L, D. split; [exact H|]. split; [exact Sk|]. split; [exact En|]. split; [exact Hr|]. split.
    - intros i. specialize (Pm i). unfold pending in *. rewrite flat_map_app in *. cbn [flat_map] in *. rewrite Ep. exact Pm.
    - apply Forall_app. split; auto. }
  assert (Hz : forall i x, nth_error L i = Some x -> zincr (map fv (fst x))).
  { intros i x N. destruct (nth_error M0 i) as [S|] eqn:Nm.
    - destruct (Hr i x S N Nm) as [I _]. apply (map_key_incr Z.ltb fv). exact I.
    - exfalso. apply nth_error_None in Nm. assert (i < length L) by (apply nth_error_Some; congruence). rewrite <- (sk_len Sk) in H0. lia. }
  destruct t as [[|l [|[c v] adds]|l pos v adds] q]; cbn [add_step fst snd] in *.
  - destruct q as [|c q].
    + apply oks_ok. cbn [fst snd]. apply Stay; auto.
    + destruct Ht as [Fc _]. cbn [snd] in Fc. inversion Fc as [|c' q' (Lr & Ik & Iz) Fq]; subst.
      destruct (at_row Sk Lr) as (A & r & k & B & -> & El & Ek & Et). pose proof H as [Ia _].
      unfold numNonZeros. rewrite <- El at 1. rewrite (row_size chk Ia). cbn [bind]. rewrite <- El at 1. rewrite (row_values fv chk Ia). cbn [bind].
      rewrite <- El at 1. rewrite (row_entries chk Ia). cbn [bind]. apply oks_ok. cbn [fst snd]. apply Stay.
      * split; [exact Fq|]. cbn [fst l_how l_row l_nnz l_columns l_entries l_cur]. split; [exact Lr|]. split; [rewrite Ek, map_length; reflexivity|].
        split; [auto|]. split; [auto|]. split; [exact Ik|]. intros Nh. split; [|intros x c0 []]. apply Iz. intros E. apply Nh. rewrite E. reflexivity.
      * intros i. unfold pending1. cbn [fst snd l_row]. unfold contrib. cbn [flat_map]. reflexivity.
  - apply oks_ok. cbn [fst snd]. apply Stay; [destruct Ht; split; auto; exact Logic.I|]. intros i. unfold pending1. cbn. destruct (l_row l =? i); reflexivity.
  - destruct Ht as [Fq Lo]. cbn [fst snd] in *. destruct (@search_ok p L l c v adds H Sk Hz Lo) as (pos & -> & Np & Lo'). cbn [bind]. apply oks_ok. cbn [fst snd].
    apply Stay.
    + split; [exact Fq|]. cbn [fst]. split; [|exact Lo']. apply nth_error_Some. congruence.
    + intros i. unfold pending1. cbn [fst snd]. destruct (Nat.eqb_spec (l_row l) i) as [<-|]; auto. erewrite nth_error_nth; [|exact Np]. reflexivity.
  - destruct Ht as [Fq [Lp Lo]]. cbn [fst snd] in *. pose proof Lo as (Lr & Enz & Ec & Ee & Ik & Hs).
    destruct (at_row Sk Lr) as (A & r & k & B & -> & El & Ek & Et).
    assert (Lpr : pos < length r) by (rewrite Ek, map_length in Lp; exact Lp).
    destruct (nth_error r pos) as [[c w]|] eqn:Nr; [|apply nth_error_None in Nr; lia]. apply nth_error_split in Nr. destruct Nr as (f & g & -> & <-).
    rewrite Ee, Et. pose proof H as [_ [_ Le]]. eapply oks_bind; [apply add_at_ok; exact (Le eq_refl)|].
    intros b Lb. apply oks_ok. cbn [fst snd rows ncols].
    set (L' := A ++ (f ++ (c, add w v) :: g, k) :: B) in *.
    assert (Sk' : same_keys (A ++ (f ++ (c, w) :: g, k) :: B) L').
    { apply sk_app; [apply sk_refl|]. constructor; [|apply sk_refl]. cbn [fst snd]. rewrite !map_app. auto. }
    exists L', (fun j => if j =? l_row l then D j ++ [(c, v)] else D j). split; [eapply new_entries; [exact H|exact Sk'|exact Lb]|]. split; [|split; [exact En|split; [|split]]].
    + clear -Sk Sk'. unfold same_keys in *. revert L0 Sk. induction Sk' as [|x y X Y [E1 E2] S IH]; intros L0' H0; inversion H0; subst; constructor; auto.
      match goal with K : _ /\ _ |- _ => destruct K as [E3 E4] end. split; congruence.
    + intros i x S N Nm. destruct (Nat.eqb_spec i (l_row l)) as [->|Ne].
      * unfold L' in N. rewrite <- El in N. rewrite nth_mid in N. injection N as <-.
        assert (N0 : nth_error (A ++ (f ++ (c, w) :: g, k) :: B) (l_row l) = Some (f ++ (c, w) :: g, k)) by (rewrite <- El; apply nth_mid).
        specialize (Hr _ _ S N0 Nm). eapply rowset_ext; [apply rowset_bump; exact Hr|]. intros e. apply added_app.
      * apply Hr; [|exact Nm]. rewrite <- N. unfold L'. apply nth_other. lia.
    + intros i. specialize (Pm i). unfold pending in *. rewrite flat_map_app in *. cbn [flat_map] in *. unfold pending1 at 2 in Pm. unfold pending1 at 2. cbn [fst snd l_row] in *.
      destruct (Nat.eqb_spec i (l_row l)) as [->|Ne].
      * rewrite Nat.eqb_refl in *. assert (Ec' : nth (length f) (keys (l_row l)) 0%Z = c).
        { rewrite Ek, map_app, app_nth2 by (rewrite map_length; lia). rewrite map_length, Nat.sub_diag. reflexivity. }
        rewrite Ec' in Pm. etransitivity; [|exact Pm]. rewrite <- app_assoc. apply Permutation_app_head. simpl. apply Permutation_middle.
      * destruct (Nat.eqb_spec (l_row l) i); [congruence|]. exact Pm.
    + apply Forall_app. split; [exact F1|]. constructor; [|exact F2']. split; [exact Fq|]. cbn. rewrite <- Et, <- Ee. exact Lo.
Qed.
Lemma add_exec_inv sched : forall p T, ainv p T -> oks (exec (add_step chk tw add) sched p T) (fun r => ainv (fst r) (snd r)).
Proof.
  induction sched as [|t sched IH]; intros p T H; cbn [exec]; [apply oks_ok; exact H|].
  destruct (nth_error T t) as [th|] eqn:N; [|apply IH; exact H]. apply nth_error_split in N. destruct N as (T1 & T2 & -> & <-).
  eapply oks_bind; [apply add_any_step; exact H|]. intros [a' th'] H'. rewrite upd_mid. apply IH. exact H'.
Qed.
End Inv.

(** ** Start and end *)
Definition call_valid (M : list row_map) (c : rowcall) : Prop :=
  (exists S, nth_error M (c_row c) = Some S /\ forall x, In x (map fst (c_adds c)) -> has S x) /\
  (c_how c <> HUnsorted -> increasing Z.ltb (map fst (c_adds c))).
Lemma add_start_inv p M nc calls : mrep p (M, nc) -> Forall (Forall (call_valid M)) calls ->
  exists L0, length L0 = length M /\ ainv L0 M nc calls p (add_start calls).
Proof.
  intros ((L & H & F) & E & G) Fc. cbn [fst snd] in *. exists L. assert (El : length L = length M) by (clear -F; induction F; simpl; auto).
  split; [exact El|]. exists L, (fun _ => []). split; [exact H|]. split; [apply sk_refl|]. split; [exact E|]. split; [|split].
  - intros i x S N Nm. assert (R : rowset x S).
    { clear -F N Nm. revert i N Nm. induction F as [|y z L M R F IH]; intros [|i] N Nm; simpl in *; try discriminate; [congruence|]. eapply IH; eauto. }
    eapply rowset_ext; [exact R|]. intros [c w]. unfold CRSSpec.added, contributions. simpl. split; [eauto|intros (w0 & H0 & ->); auto].
  - intros i. simpl. unfold pending, add_start, all_contrib. rewrite flat_map_concat_map, map_map, <- flat_map_concat_map. apply Permutation_refl.
  - unfold add_start. rewrite Forall_map. eapply Forall_impl; [|exact Fc]. intros q Hq. split; [|exact Logic.I]. cbn [snd].
    eapply Forall_impl; [|exact Hq]. intros c ((S & N & Hh) & Hi). assert (Lr : c_row c < length L) by (rewrite El; apply nth_error_Some; congruence).
    split; [exact Lr|]. split; [|intros Nh; apply increasing_strong; auto]. intros x Hx. destruct (Hh x Hx) as [w Sw].
    unfold keys. destruct (f2_at F N) as (A & r & k & B & -> & Ea & [_ R] & _). rewrite <- Ea, nth_mid. cbn [fst] in *. apply in_map_iff. exists (x, w). split; auto. apply R. exact Sw.
Qed.
(** Additions in any order. *)
Hypothesis comm : forall w a b, add (add w a) b = add (add w b) a.
Lemma fold_perm l l' : Permutation l l' -> forall w, fold_left add l w = fold_left add l' w.
Proof. induction 1; intros w; simpl; auto; [rewrite comm; reflexivity|]. rewrite IHPermutation1. auto. Qed.
Lemma contributions_perm (l l' : list P) c : Permutation l l' -> Permutation (contributions l c) (contributions l' c).
Proof.
  unfold contributions. intros H. apply Permutation_map. induction H; simpl; auto.
  - destruct (fst x =? c)%Z; auto.
  - destruct (fst x =? c)%Z, (fst y =? c)%Z; auto. constructor.
  - etransitivity; eauto.
Qed.
Lemma added_perm l l' S e : Permutation l l' -> added l S e <-> added l' S e.
Proof.
  intros H. unfold CRSSpec.added. split; intros (w & Sw & E); exists w; split; auto; rewrite E; apply fold_perm, contributions_perm; auto. symmetry. auto.
Qed.
Definition all_added (calls : list (list rowcall)) (M : list row_map) : list row_map :=
  map (fun iS => added (all_contrib (fst iS) calls) (snd iS)) (combine (seq 0 (length M)) M).
Lemma nth_combine_seq {X} (l : list X) : forall n i, nth_error (combine (seq n (length l)) l) i = match nth_error l i with Some x => Some (n + i, x) | None => None end.
Proof.
  induction l as [|x l IH]; intros n [|i]; simpl; auto.
  - rewrite Nat.add_0_r. reflexivity.
  - rewrite IH. destruct (nth_error l i); auto. do 2 f_equal. lia.
Qed.
Lemma nth_all_added calls M i : nth_error (all_added calls M) i = match nth_error M i with Some s => Some (added (all_contrib i calls) s) | None => None end.
Proof. unfold all_added. rewrite nth_error_map, nth_combine_seq. destruct (nth_error M i); reflexivity. Qed.
Lemma f2_intro (L : rows_t) (M : list row_map) : length L = length M -> (forall i x S, nth_error L i = Some x -> nth_error M i = Some S -> rowset x S) -> Forall2 rowset L M.
Proof.
  revert M. induction L as [|x L IH]; intros [|S M] E H; try discriminate; constructor.
  - apply (H 0); reflexivity.
  - apply IH; [simpl in E; lia|]. intros i. exact (H (Datatypes.S i)).
Qed.
Lemma all_added_len calls M : length (all_added calls M) = length M.
Proof. unfold all_added. rewrite map_length, combine_length, seq_length. lia. Qed.
Lemma add_fin p M nc calls L0 T p0 : length L0 = length M -> mrep p0 (M, nc) -> ainv L0 M nc calls p T -> add_finished T ->
  mrep p (all_added calls M, nc).
Proof.
  intros El (_ & _ & G) (L & D & H & Sk & En & Hr & Pm & Ft) Fn. cbn [fst snd] in *. split; [|split; [exact En|]].
  - exists L. split; [exact H|]. apply f2_intro; [cbn [fst]; rewrite all_added_len, <- El; symmetry; apply sk_len; exact Sk|].
    intros i x S N Nm. cbn [fst] in Nm. rewrite nth_all_added in Nm. destruct (nth_error M i) as [S0|] eqn:N0; [|discriminate]. injection Nm as <-.
    eapply rowset_ext; [eapply Hr; eauto|]. intros e. apply added_perm. specialize (Pm i).
    assert (Ep : pending L0 i T = []) by (unfold pending; clear -Fn; induction Fn as [|t T E F IH]; simpl; auto; subst t; exact IH).
    rewrite Ep, app_nil_r in Pm. exact Pm.
  - cbn [fst snd]. intros S x Is Hx. apply In_nth_error in Is. destruct Is as [i Ni]. rewrite nth_all_added in Ni. destruct (nth_error M i) as [S0|] eqn:N0; [|discriminate].
    injection Ni as <-. apply (proj1 (added_has add (all_contrib i calls) S0 x)) in Hx. exact (mranged_at G N0 Hx).
Qed.
End Add.

(** Every thread which is scheduled often enough finishes. *)
Definition call_steps {W} (c : rowcall W) : nat := 2 + 2 * length (c_adds c).
Definition calls_steps {W} (q : list (rowcall W)) : nat := fold_right (fun c n => call_steps c + n) 0 q.
Definition add_todo {W} (t : place_add W * list (rowcall W)) : nat :=
  (match fst t with AIdle => 0 | ALoop _ adds => 1 + 2 * length adds | AFound _ _ _ adds => 2 + 2 * length adds end) + calls_steps (snd t).
Lemma add_todo_step W chk tw add (a a' : pattern W) t t' : add_step chk tw add a t = Ok (a', t') -> add_todo t' = add_todo t - 1.
Proof.
  destruct t as [[|l [|[c v] adds]|l pos v adds] q]; cbn [add_step]; unfold add_todo.
  - destruct q as [|c q].
    + intros E. injection E as <- <-. reflexivity.
    + destruct (numNonZeros chk a (c_row c)); try discriminate. cbn [bind]. destruct (getSetValues chk (rows a) (c_row c)); try discriminate. cbn [bind].
      destruct (getEntries chk (rows a) (c_row c)); try discriminate. cbn [bind]. intros E. injection E as <- <-. cbn. unfold call_steps. lia.
  - intros E. injection E as <- <-. cbn. lia.
  - destruct (search a l c); try discriminate. cbn [bind]. intros E. injection E as <- <-. cbn. lia.
  - destruct (add_at tw add (ents (rows a)) (l_entries l + pos) v); try discriminate. cbn [bind]. intros E. injection E as <- <-. cbn. lia.
Qed.
Lemma exec_measure {S T} (step : S -> T -> outcome (S * T)) (m : T -> nat) : (forall s s' t t', step s t = Ok (s', t') -> m t' = m t - 1) ->
  forall sched s s' ths ths', exec step sched s ths = Ok (s', ths') ->
  length ths' = length ths /\ forall t th, nth_error ths t = Some th -> exists th', nth_error ths' t = Some th' /\ m th' = m th - count_occ Nat.eq_dec sched t.
Proof.
  intros Hm. induction sched as [|k sched IH]; intros a a' ths ths'; cbn [exec].
  - intros E. injection E as <- <-. split; auto. intros t th N. exists th. simpl. split; [exact N|lia].
  - destruct (nth_error ths k) as [x|] eqn:Nk.
    + destruct (step a x) as [[a1 x1]| |] eqn:Es; try discriminate. cbn [bind]. intros E. apply IH in E. destruct E as [El H].
      apply Hm in Es. apply nth_error_split in Nk. destruct Nk as (T1 & T2 & -> & <-). rewrite upd_mid in *. rewrite app_length in *. simpl length in *.
      split; [lia|]. intros t th N. simpl. destruct (Nat.eq_dec (length T1) t) as [<-|Ne].
      * rewrite nth_mid in N. injection N as ->. destruct (H _ x1 (nth_mid _ _ _)) as (th' & N' & E'). exists th'. split; [exact N'|]. lia.
      * apply H. rewrite <- N. apply nth_other. auto.
    + intros E. apply IH in E. destruct E as [El H]. split; [exact El|]. intros t th N. simpl. destruct (Nat.eq_dec k t) as [->|Ne]; [congruence|]. apply H. exact N.
Qed.
