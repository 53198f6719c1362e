(** Proofs about PyCRS.v: the methods refine rows given by their increasing lists of entries. *)
From Coq Require Import List Arith ZArith Lia Bool Sorting.Sorted.
From Verif Require Import Base BaseProofs Mem BufferManip SortedSpec SortedArraySpec AoA AoASpec AoS AoSSpec Sparsity SparsitySpec CRS CRSSpec PropCRS
  PyBase PyArraysSpec PyCRS PyCRSSpec.
From Verif Require MemProofs BufferManipProofs SortedProofs SortedProofs2 AoALayout AoAProofs AoAProofs2 SetsProofs SetsProofs2 AoSProofs SparsityProofs
  CRSProofs2 CRSProofs3 CRSProofs4 PyArraysProofs.
Import ListNotations.
Set Implicit Arguments.
Unset Strict Implicit.

(** * Lists of entries *)
Section Lists.
Variable W : Type.
Notation E := (Z * W)%type.
Notation pincr l := (StronglySorted (fun x y : E => (fst x <? fst y)%Z = true) l).

Lemma pincr_keys (l : list E) : pincr l <-> increasing Z.ltb (map fst l).
Proof.
  split; intros H.
  - apply (SortedProofs.increasing_strong Z.ltb). apply (SortedProofs2.map_key_incr Z.ltb fst). exact H.
  - apply (SortedProofs.increasing_strong Z.ltb) in H. apply (SortedProofs2.map_key_incr Z.ltb fst) in H. exact H.
Qed.
Lemma pincr_unique l : forall l' : list E, pincr l -> pincr l' -> (forall x, In x l <-> In x l') -> l = l'.
Proof.
  induction l as [|x l IH]; intros [|y l'] I I' Q.
  - reflexivity.
  - destruct (proj2 (Q y) (or_introl eq_refl)).
  - destruct (proj1 (Q x) (or_introl eq_refl)).
  - inversion I as [|? ? I1 F]; subst. inversion I' as [|? ? I1' F']; subst. rewrite Forall_forall in F, F'.
    assert (H : x = y).
    { destruct (proj1 (Q x) (or_introl eq_refl)) as [->|Hx]; [reflexivity|]. destruct (proj2 (Q y) (or_introl eq_refl)) as [->|Hy]; [reflexivity|].
      apply F in Hy. apply F' in Hx. apply Z.ltb_lt in Hx, Hy. lia. }
    subst y. f_equal. apply IH; auto. intros z. split; intros Hz.
    + destruct (proj1 (Q z) (or_intror Hz)) as [->|H]; [|exact H]. apply F in Hz. apply Z.ltb_lt in Hz. lia.
    + destruct (proj2 (Q z) (or_intror Hz)) as [->|H]; [|exact H]. apply F' in Hz. apply Z.ltb_lt in Hz. lia.
Qed.
Lemma pincr_nodup (l : list E) : pincr l -> NoDup l.
Proof.
  induction l as [|x l IH]; intros H; constructor; inversion H as [|? ? H1 F]; subst; auto.
  intros Hx. rewrite Forall_forall in F. apply F in Hx. rewrite Z.ltb_irrefl in Hx. discriminate.
Qed.
Lemma has_in (l : list E) c : has (fun e => In e l) c <-> In c (map fst l).
Proof.
  unfold has. rewrite in_map_iff. split; [intros [w H]; exists (c, w); auto|intros ([c' w] & <- & H); exists w; exact H].
Qed.

Lemma with_entry_keys e (l : list E) c : In c (map fst (with_entry e l)) <-> c = fst e \/ In c (map fst l).
Proof.
  induction l as [|x l IH]; simpl; [intuition|]. destruct (Z.ltb_spec (fst e) (fst x)); simpl; [intuition|].
  destruct (Z.eqb_spec (fst e) (fst x)); simpl; [split; [intuition|intros [->|]; auto]|]. rewrite IH. intuition.
Qed.
Lemma with_entry_in e (l : list E) x : pincr l -> (In x (with_entry e l) <-> In x l \/ (x = e /\ ~ In (fst e) (map fst l))).
Proof.
  induction l as [|y l IH]; intros I; simpl; [intuition|]. inversion I as [|? ? I1 F]; subst. rewrite Forall_forall in F.
  destruct (Z.ltb_spec (fst e) (fst y)) as [L|L]; simpl.
  - split; [|intuition]. intros [<-|[<-|H]]; auto. right. split; [reflexivity|]. intros [K|K]; [lia|].
    apply in_map_iff in K. destruct K as (z & Kz & Hz). apply F in Hz. apply Z.ltb_lt in Hz. lia.
  - destruct (Z.eqb_spec (fst e) (fst y)) as [Q|Q]; simpl.
    + split; [tauto|]. intros [H|[_ H]]; [exact H|]. destruct H. left. auto.
    + rewrite (IH I1). split; [|intros [[H|H]|[H K]]; auto].
      * intros [H|[H|[H K]]]; auto. right. split; [exact H|]. intros [J|J]; auto.
      * right. right. split; [exact H|]. intros J. apply K. right. exact J.
Qed.
Lemma with_entry_incr e (l : list E) : pincr l -> pincr (with_entry e l).
Proof.
  induction l as [|y l IH]; intros I; simpl; [repeat constructor|]. inversion I as [|? ? I1 F]; subst.
  destruct (Z.ltb_spec (fst e) (fst y)) as [L|L].
  - constructor; [exact I|]. constructor; [apply Z.ltb_lt; exact L|]. eapply Forall_impl; [|exact F]. simpl. intros z Hz. apply Z.ltb_lt in Hz. apply Z.ltb_lt. lia.
  - destruct (Z.eqb_spec (fst e) (fst y)) as [Q|Q]; [exact I|]. constructor; [auto|]. apply Forall_forall. intros z Hz.
    assert (K : In (fst z) (map fst (with_entry e l))) by (apply in_map; exact Hz). apply with_entry_keys in K. destruct K as [K|K].
    + apply Z.ltb_lt. lia.
    + apply in_map_iff in K. destruct K as (u & Ku & Hu). rewrite Forall_forall in F. apply F in Hu. rewrite <- Ku. exact Hu.
Qed.
Lemma with_entries_incr (l es : list E) : pincr l -> pincr (with_entries l es).
Proof. intros H. induction es; simpl; auto. apply with_entry_incr. exact IHes. Qed.
Lemma with_entries_keys (l es : list E) c : In c (map fst (with_entries l es)) <-> In c (map fst es) \/ In c (map fst l).
Proof. induction es as [|e es IH]; simpl; [tauto|]. rewrite with_entry_keys, IH. intuition. Qed.
Lemma with_entries_in (l es : list E) x : pincr l -> NoDup (map fst es) ->
  (In x (with_entries l es) <-> In x l \/ (In x es /\ ~ In (fst x) (map fst l))).
Proof.
  intros I. induction es as [|e es IH]; simpl; intros N; [intuition|]. inversion N as [|? ? N1 N2]; subst.
  rewrite with_entry_in by (apply with_entries_incr; exact I). rewrite (IH N2), with_entries_keys. split.
  - intros [[H|[H K]]|[-> K]]; auto. right. tauto.
  - intros [H|[[<-|H] K]]; auto. right. split; auto. tauto.
Qed.
Lemma without_in (l : list E) cs x : In x (without l cs) <-> In x l /\ ~ In (fst x) cs.
Proof.
  unfold without. rewrite filter_In, negb_true_iff, <- not_true_iff_false, existsb_exists. split; intros [H K]; split; auto; intros J; apply K.
  - exists (fst x). split; [exact J|apply Z.eqb_refl].
  - destruct J as (c & H1 & H2). apply Z.eqb_eq in H2. subst. exact H1.
Qed.
Lemma filter_pincr f (l : list E) : pincr l -> pincr (filter f l).
Proof.
  induction l as [|x l IH]; intros I; simpl; [constructor|]. inversion I as [|? ? I1 F]; subst. destruct (f x); auto. constructor; auto.
  apply Forall_forall. intros y Hy. apply filter_In in Hy. rewrite Forall_forall in F. apply F. tauto.
Qed.
Lemma same_keys_pincr (l l' : list E) : map fst l = map fst l' -> pincr l -> pincr l'.
Proof. intros Q H. apply pincr_keys. rewrite <- Q. apply pincr_keys. exact H. Qed.
Lemma incr_nodup_z (l : list Z) : increasing Z.ltb l -> NoDup l.
Proof.
  intros H. apply (SortedProofs.increasing_strong Z.ltb) in H. induction H as [|x l H IH F]; constructor; auto.
  intros K. rewrite Forall_forall in F. apply F in K. rewrite Z.ltb_irrefl in K. discriminate.
Qed.
Lemma combine_fst {X Y} (a : list X) (b : list Y) : map fst (combine a b) = firstn (length b) a.
Proof. revert b; induction a as [|x a IH]; intros [|y b]; simpl; auto. f_equal. apply IH. Qed.
Lemma combine_snd {X Y} (a : list X) (b : list Y) : length b <= length a -> map snd (combine a b) = b.
Proof. revert a; induction b as [|y b IH]; intros [|x a] H; simpl in *; auto; [lia|]. f_equal. apply IH. lia. Qed.
Lemma set_nth_split (f g : list E) c w w' : set_nth (f ++ (c, w) :: g) (length f) w' = f ++ (c, w') :: g.
Proof.
  unfold set_nth. rewrite nth_error_app2, Nat.sub_diag by lia. cbn [nth_error fst]. f_equal.
  - rewrite firstn_app, Nat.sub_diag, firstn_all. simpl. apply app_nil_r.
  - f_equal. rewrite skipn_app, skipn_all2 by lia. replace (length f + 1 - length f) with 1 by lia. reflexivity.
Qed.
Variable add : W -> W -> W.
Lemma plus_in (l adds : list E) x : In x (plus add l adds) <-> added add adds (fun e => In e l) x.
Proof.
  unfold plus, added. rewrite in_map_iff. destruct x as [c w]. cbn [fst snd]. split.
  - intros ([c' w'] & Q & H). cbn [fst snd] in Q. injection Q as -> <-. exists w'. auto.
  - intros (w' & H & ->). exists (c, w'). auto.
Qed.
Lemma plus_keys (l adds : list E) : map fst (plus add l adds) = map fst l.
Proof. unfold plus. rewrite map_map. apply map_ext. reflexivity. Qed.
End Lists.

(** * The matrix *)
Section Matrix.
Variable W : Type.
Variable zero : W.
Variable chk : bool.
Variable add : W -> W -> W.
Variable safe : nat -> nat -> bool.
Variable convc : nat -> nat -> Z -> Z.
Variable conve : nat -> nat -> W -> W.
Variable ctype etype : nat.
Variable cmax imax host : Z.
Notation matrix := (pattern W).
Notation E := (Z * W)%type.
Notation pincr l := (StronglySorted (fun x y : E => (fst x <? fst y)%Z = true) l).
Notation mrep := (@CRSProofs2.mrep W true).
Notation aok := (@AoAProofs.aok E Z W fst snd true true true).
Notation st p lev := (mkPC (Some p) lev).
Definition members (M : list (list E)) : list (row_map W) := map (fun l e => In e l) M.
Definition kok (p : matrix) (M : list (list E)) (nc : nat) : Prop := mrep p (members M, nc) /\ Forall (fun l => pincr l) M.
Notation run_step := (cstep chk true BMalloc cmax add zero).

Lemma members_len M : length (members M) = length M. Proof. apply map_length. Qed.
Lemma members_put M k l : members (put_at M k l) = put_at (members M) k (fun x => In x l).
Proof. unfold members, put_at. rewrite map_app. cbn [map]. rewrite firstn_map, skipn_map. reflexivity. Qed.
Lemma forall_put (P : list E -> Prop) M k l : Forall P M -> P l -> Forall P (put_at M k l).
Proof.
  intros F H. unfold put_at. pose proof (firstn_skipn k M) as E1. pose proof (firstn_skipn (k + 1) M) as E2.
  apply Forall_app. split; [rewrite <- E1 in F; apply Forall_app in F; tauto|]. constructor; [exact H|]. rewrite <- E2 in F. apply Forall_app in F. tauto.
Qed.
Lemma member_at M k : k < length M -> nth_error (members M) k = Some (fun x => In x (nth k M [])).
Proof. intros H. unfold members. rewrite nth_error_map, (PyArraysProofs.nth_row H). reflexivity. Qed.
Lemma row_incr M k : Forall (fun l => pincr l) M -> k < length M -> pincr (nth k M []).
Proof. intros F H. rewrite Forall_forall in F. apply F. apply nth_In. exact H. Qed.
Lemma f2_refl (M : list (row_map W)) : Forall2 (fun S S' : row_map W => forall x, S x <-> S' x) M M.
Proof. induction M; constructor; auto. intros x. tauto. Qed.
Lemma card_in l : pincr l -> cardinal (fun x => In x l) (length l).
Proof. intros I. exists l. split; [apply pincr_nodup; exact I|]. split; [intros x; tauto|reflexivity]. Qed.

Lemma kok_rows p M nc : kok p M nc -> exists L, aok (rows p) L /\ map fst L = M.
Proof.
  intros [((L & H & F) & _) I]. cbn [fst] in F. exists L. split; [exact H|]. clear H.
  revert M I F. induction L as [|[r k] L IH]; intros M I F; destruct M as [|l M]; inversion F as [|? ? ? ? [Ir Er] F']; subst; [reflexivity|].
  inversion I as [|? ? Il IM]; subst. simpl in *. f_equal; [apply pincr_unique; auto|apply IH; auto].
Qed.
Lemma kok_num p M nc : kok p M nc -> numArrays (rows p) = length M.
Proof. intros [(R & _) _]. rewrite (SetsProofs2.rep_num R). apply members_len. Qed.
Lemma kok_cols p M nc : kok p M nc -> ncols p = nc. Proof. intros [(_ & Q & _) _]. exact Q. Qed.

(** What can be read of a row *)
Lemma kok_row p M nc k : kok p M nc -> k < length M ->
  numNonZeros chk p k = Ok (length (nth k M [])) /\
  forall j c w, nth_error (nth k M []) j = Some (c, w) -> column chk p k j = Ok c /\ entry chk p k j = Ok w.
Proof.
  intros [R I] H. pose proof (mrep_shows chk R) as (_ & _ & S). destruct (S k _ (member_at H)) as (l & Il & Q & _ & N & Rd & _).
  assert (l = nth k M []) by (apply pincr_unique; [apply pincr_keys; exact Il|apply row_incr; assumption|exact Q]). subst l. auto.
Qed.
Lemma read_columns_ok p M nc k : kok p M nc -> k < length M -> forall n j, j + n = length (nth k M []) ->
  read_columns chk p k j n = Ok (map fst (skipn j (nth k M []))).
Proof.
  intros R H. destruct (kok_row R H) as [_ Rd]. induction n as [|n IH]; intros j Q; simpl.
  - rewrite skipn_all2 by lia. reflexivity.
  - destruct (nth_error (nth k M []) j) as [[c w]|] eqn:N; [|apply nth_error_None in N; lia].
    rewrite (proj1 (Rd _ _ _ N)). cbn [bind]. rewrite IH by lia. cbn [bind]. rewrite (PyArraysProofs.skipn_nth N). reflexivity.
Qed.
Lemma read_entries_ok p M nc k : kok p M nc -> k < length M -> forall n j, j + n = length (nth k M []) ->
  read_entries chk p k j n = Ok (map snd (skipn j (nth k M []))).
Proof.
  intros R H. destruct (kok_row R H) as [_ Rd]. induction n as [|n IH]; intros j Q; simpl.
  - rewrite skipn_all2 by lia. reflexivity.
  - destruct (nth_error (nth k M []) j) as [[c w]|] eqn:N; [|apply nth_error_None in N; lia].
    rewrite (proj2 (Rd _ _ _ N)). cbn [bind]. rewrite IH by lia. cbn [bind]. rewrite (PyArraysProofs.skipn_nth N). reflexivity.
Qed.
Lemma no_row_plain p M nc i : kok p M nc ->
  match plain (length M) i with Some k => no_row p i = false /\ k = Z.to_nat i /\ k < length M | None => no_row p i = true end.
Proof.
  intros R. unfold no_row. rewrite (kok_num R). destruct (plain (length M) i) as [k|] eqn:Q.
  - apply PyArraysProofs.plain_some in Q. destruct Q as (B & -> & L). rewrite (PyArraysProofs.in_range B). auto.
  - apply PyArraysProofs.plain_none in Q. exact Q.
Qed.
Lemma getColumns_ok p M nc lev i : kok p M nc ->
  k_getColumns chk (st p lev) i = Ok (st p lev, if negb (in_ll i) then KRaise EOverflow else
    match plain (length M) i with Some k => KColumns false (map fst (nth k M [])) | None => KRaise ERuntime end).
Proof.
  intros R. unfold k_getColumns. cbn [pc_matrix]. destruct (in_ll i); cbn [negb]; [|reflexivity].
  pose proof (no_row_plain i R) as P. destruct (plain (length M) i) as [k|]; [|rewrite P; reflexivity].
  destruct P as (-> & <- & L). rewrite (proj1 (kok_row R L)). cbn [bind]. rewrite (read_columns_ok R L) by lia. reflexivity.
Qed.
Lemma getEntries_ok p M nc lev i : kok p M nc ->
  k_getEntries chk (st p lev) i = Ok (st p lev, if negb (in_ll i) then KRaise EOverflow else
    match plain (length M) i with Some k => KEntries (negb (lev =? 0)%Z) (map snd (nth k M [])) | None => KRaise ERuntime end).
Proof.
  intros R. unfold k_getEntries. cbn [pc_matrix]. destruct (in_ll i); cbn [negb]; [|reflexivity].
  pose proof (no_row_plain i R) as P. destruct (plain (length M) i) as [k|]; [|rewrite P; reflexivity].
  destruct P as (-> & <- & L). rewrite (proj1 (kok_row R L)). cbn [bind]. rewrite (read_entries_ok R L) by lia. reflexivity.
Qed.

(** ** Calls of the matrix *)
Lemma step_done c p M nc S' nc' M' : kok p M nc -> callowed true c (members M, nc) -> mat_step add zero cmax c (members M, nc) = Some (S', nc') ->
  Forall2 (fun S S' : row_map W => forall x, S x <-> S' x) S' (members M') -> Forall (fun l => pincr l) M' ->
  exists p' r, run_step c p = Ok (p', r) /\ kok p' M' nc' /\ creturns c (members M) S' r.
Proof.
  intros [R I] A Q X I'. pose proof (@CRSProofs4.cstep_ok W chk true add zero cmax c p _ R A) as S. rewrite Q in S.
  destruct S as [([p' r] & D & R' & C)|[C _]]; [|discriminate]. exists p', r. split; [exact D|]. split; [split|exact C]; [|exact I'].
  cbn [fst] in R'. exact (CRSProofs4.mrep_cast R' X).
Qed.
Lemma insert_row p M nc k es : kok p M nc -> k < length M -> increasing Z.ltb (map fst es) -> Forall (in_range nc) (map fst es) ->
  exists p' r, crs_insertNonZeros chk true BMalloc p k (map fst es) (map snd es) = Ok (p', r) /\
    kok p' (put_at M k (with_entries (nth k M []) es)) nc /\ Z.of_nat r = grown_by (nth k M []) (with_entries (nth k M []) es).
Proof.
  intros R H A B. pose proof (row_incr (proj2 R) H) as Il. set (l := nth k M []) in *. pose proof (with_entries_incr es Il) as Iu.
  set (S' := fun e : E => In e l \/ (In e es /\ ~ has (fun e => In e l) (fst e))).
  assert (X : forall x, S' x <-> In x (with_entries l es)).
  { intros x. unfold S'. rewrite has_in. symmetry. apply with_entries_in; [exact Il|apply incr_nodup_z; exact A]. }
  assert (Q : mat_step add zero cmax (CInserts k es) (members M, nc) = Some (put_at (members M) k S', nc)).
  { cbn [mat_step]. unfold on_elem. rewrite (member_at H). reflexivity. }
  destruct (step_done (c := CInserts k es) (M' := put_at M k (with_entries l es)) R (conj A B) Q) as (p' & r & D & R' & C).
  { rewrite members_put. apply CRSProofs4.mput_ext. exact X. }
  { apply forall_put; [apply R|exact Iu]. }
  exists p', r. split; [exact D|]. split; [exact R'|]. cbn [creturns] in C.
  specialize (C _ _ (length l) (length (with_entries l es)) (member_at H) (AoSProofs.nth_put S' (member_at H)) (card_in Il)).
  assert (Cd : cardinal S' (length (with_entries l es))).
  { eapply CRSProofs4.mcard_ext; [intros x; symmetry; apply X|]. apply card_in. exact Iu. }
  specialize (C Cd). unfold grown_by. fold l. lia.
Qed.
Lemma remove_row p M nc k cs : kok p M nc -> k < length M -> increasing Z.ltb cs ->
  exists p' r, crs_removeNonZeros chk true p k cs = Ok (p', r) /\
    kok p' (put_at M k (without (nth k M []) cs)) nc /\ Z.of_nat r = grown_by (without (nth k M []) cs) (nth k M []).
Proof.
  intros R H A. pose proof (row_incr (proj2 R) H) as Il. set (l := nth k M []) in *. pose proof (filter_pincr (fun x => negb (existsb (Z.eqb (fst x)) cs)) Il) as Iu.
  fold (without l cs) in Iu. set (S' := fun e : E => In e l /\ ~ In (fst e) cs).
  assert (X : forall x, S' x <-> In x (without l cs)) by (intros x; symmetry; apply without_in).
  assert (Q : mat_step add zero cmax (CRemoves k cs) (members M, nc) = Some (put_at (members M) k S', nc)).
  { cbn [mat_step]. unfold on_elem. rewrite (member_at H). reflexivity. }
  destruct (step_done (c := CRemoves k cs) (M' := put_at M k (without l cs)) R A Q) as (p' & r & D & R' & C).
  { rewrite members_put. apply CRSProofs4.mput_ext. exact X. }
  { apply forall_put; [apply R|exact Iu]. }
  exists p', r. split; [exact D|]. split; [exact R'|]. cbn [creturns] in C.
  specialize (C _ _ (length l) (length (without l cs)) (member_at H) (AoSProofs.nth_put S' (member_at H)) (card_in Il)).
  assert (Cd : cardinal S' (length (without l cs))).
  { eapply CRSProofs4.mcard_ext; [intros x; symmetry; apply X|]. apply card_in. exact Iu. }
  specialize (C Cd). unfold grown_by. fold l. lia.
Qed.
Lemma quiet_inv (m : outcome matrix) p' r : quiet m = Ok (p', r) -> m = Ok p'.
Proof. unfold quiet. destruct m as [x| |]; cbn; intros Q; try discriminate. injection Q as <- _. reflexivity. Qed.
Lemma add_row p M nc k adds : kok p M nc -> k < length M -> Forall (fun c => In c (map fst (nth k M []))) (map fst adds) ->
  exists p', addUnsorted chk true add p k adds = Ok p' /\ kok p' (put_at M k (plus add (nth k M []) adds)) nc.
Proof.
  intros R H A. pose proof (row_incr (proj2 R) H) as Il. set (l := nth k M []) in *.
  assert (Q : mat_step add zero cmax (CAddUnsorted k adds) (members M, nc) = Some (put_at (members M) k (added add adds (fun e => In e l)), nc)).
  { cbn [mat_step]. unfold on_elem. rewrite (member_at H). reflexivity. }
  assert (Al : callowed true (CAddUnsorted k adds) (members M, nc)).
  { intros S c N Hc. cbn [fst] in N. rewrite (member_at H) in N. injection N as <-. apply has_in. rewrite Forall_forall in A. apply A. exact Hc. }
  destruct (step_done (c := CAddUnsorted k adds) (M' := put_at M k (plus add l adds)) R Al Q) as (p' & r & D & R' & _).
  { rewrite members_put. apply CRSProofs4.mput_ext. intros x. symmetry. apply plus_in. }
  { apply forall_put; [apply R|]. apply (same_keys_pincr (l := l)); [symmetry; apply plus_keys|exact Il]. }
  exists p'. split; [|exact R']. cbn [cstep] in D. exact (quiet_inv D).
Qed.
Lemma resize_rows p M nc nr nc' cap : kok p M nc -> (Z.of_nat nc' - 1 <= cmax)%Z -> Forall (fun r => Forall (fun e : E => in_range nc' (fst e)) r) (firstn nr M) ->
  exists p', sp_resize chk true true BMalloc cmax p nr nc' cap = Ok p' /\ kok p' (resized_to M nr []) nc'.
Proof.
  intros R H A.
  assert (Q : mat_step add zero cmax (CResize nr nc' cap) (members M, nc) = Some (resized_to (members M) nr none, nc')).
  { cbn [mat_step]. replace (cmax <? Z.of_nat nc' - 1)%Z with false by (symmetry; apply Z.ltb_ge; lia). reflexivity. }
  assert (Al : callowed true (CResize nr nc' cap) (members M, nc)).
  { intros S c N Hc. cbn [fst] in N. unfold members in N. rewrite firstn_map in N. apply in_map_iff in N. destruct N as (l & <- & Hl).
    apply has_in, in_map_iff in Hc. destruct Hc as (e & <- & He). rewrite Forall_forall in A. specialize (A l Hl). rewrite Forall_forall in A. apply A. exact He. }
  destruct (step_done (c := CResize nr nc' cap) (M' := resized_to M nr []) R Al Q) as (p' & r & D & R' & _).
  { unfold resized_to, members. rewrite map_app, firstn_map, map_length. apply Forall2_app; [apply f2_refl|]. generalize (nr - length M). clear.
    intros n. induction n; simpl; constructor; auto. intros x. unfold none. simpl. tauto. }
  { unfold resized_to. apply Forall_app. split.
    - destruct R as [_ I]. rewrite <- (firstn_skipn nr M) in I. apply Forall_app in I. tauto.
    - apply Forall_forall. intros x Hx. apply repeat_spec in Hx. subst. constructor. }
  exists p'. split; [|exact R']. cbn [cstep] in D. exact (quiet_inv D).
Qed.

(** Writing through a view of the entries *)
Lemma set_entry_ok p M nc k j w : kok p M nc -> k < length M -> j < length (nth k M []) ->
  exists p', set_entry chk p k j w = Ok p' /\ kok p' (put_at M k (set_nth (nth k M []) j w)) nc.
Proof.
  intros R H Hj. destruct R as [((L & H0 & F) & Nc & G) I]. cbn [fst snd] in *. pose proof (member_at H) as N.
  destruct (SetsProofs2.f2_at F N) as (A & r & q & B & EL & EA & [Ir Rs] & Put). cbn [fst] in *.
  assert (r = nth k M []) by (apply pincr_unique; [exact Ir|apply row_incr; assumption|exact Rs]). subst r.
  destruct (nth_error (nth k M []) j) as [[c w0]|] eqn:Nj; [|apply nth_error_None in Nj; lia].
  destruct (nth_error_split _ _ Nj) as (f & g & Er & Ef). rewrite EL in H0. rewrite Er in H0. pose proof H0 as [Ia [Lv Le]].
  unfold set_entry. subst k j. rewrite (CRSProofs2.row_entries chk Ia). cbn [bind].
  destruct (SetsProofs.lay_row (Le eq_refl)) as [z Mm].
  assert (EE : forall u, AoALayout.flat snd A ++ map (@MemProofs.LV W) (map snd (f ++ (c, u) :: g)) ++ repeat MemProofs.LN q ++ AoALayout.flat snd B ++ repeat MemProofs.LN z =
     (AoALayout.flat snd A ++ map (@MemProofs.LV W) (map snd f)) ++ MemProofs.LV u :: map (@MemProofs.LV W) (map snd g) ++ repeat MemProofs.LN q ++ AoALayout.flat snd B ++ repeat MemProofs.LN z).
  { intros u. rewrite !map_app. simpl. rewrite <- !app_assoc. reflexivity. }
  rewrite EE in Mm.
  assert (Ei : length (AoALayout.flat (@fst Z W) A) + length f = length (AoALayout.flat snd A ++ map (@MemProofs.LV W) (map snd f))).
  { rewrite app_length, !map_length, !AoALayout.flat_length. reflexivity. }
  assert (Lw : @MemProofs.live W (MemProofs.LV w0)) by discriminate.
  destruct (@MemProofs.assign_ok W true _ _ _ _ _ w Mm Ei Lw) as (b & -> & Mb). cbn [bind]. rewrite <- EE in Mb. apply SetsProofs.row_lay in Mb.
  eexists. split; [reflexivity|]. rewrite Er, set_nth_split. split; [|apply forall_put; [exact I|]].
  - assert (Sk : CRSProofs3.same_keys (A ++ (f ++ (c, w0) :: g, q) :: B) (A ++ (f ++ (c, w) :: g, q) :: B)).
    { apply CRSProofs3.sk_app; [apply CRSProofs3.sk_refl|]. constructor; [|apply CRSProofs3.sk_refl]. cbn [fst snd]. split; [rewrite !map_app; reflexivity|reflexivity]. }
    pose proof (CRSProofs3.new_entries H0 Sk Mb) as Hn. split; [|split].
    + cbn [fst rows]. eexists. split; [exact Hn|]. rewrite members_put. apply Put. split; [|intros y; reflexivity]. cbn [fst].
      rewrite Er in Ir. eapply CRSProofs3.pincr_rekey. exact Ir.
    + cbn. exact Nc.
    + cbn [fst snd]. rewrite members_put. apply CRSProofs2.mranged_put; [exact G|]. intros x Hx. apply has_in in Hx.
      apply (CRSProofs2.mranged_at G N). apply has_in. rewrite Er. rewrite map_app in *. exact Hx.
  - assert (Ik : pincr (f ++ (c, w0) :: g)) by (rewrite <- Er; exact Ir). eapply CRSProofs3.pincr_rekey. exact Ik.
Qed.

(** ** Compressed matrices *)
Definition full (L : list (list E * nat)) : bool := forallb (fun r => snd r =? 0) L.
Lemma isCompressed_ok p L : aok (rows p) L -> isCompressed chk p = Ok (full L).
Proof.
  intros [I _]. unfold isCompressed. pose proof I as (N & _). rewrite N.
  assert (G : forall T A b, L = A ++ T -> for_up (length T) (fun row b => n <- numNonZeros chk p row ;; c <- nonZeroCapacity chk p row ;; Ok (b && (n =? c))) (length A) b
    = Ok (b && full T)).
  { induction T as [|[r k] T IH]; intros A b Q; simpl.
    - rewrite andb_true_r. reflexivity.
    - unfold numNonZeros, nonZeroCapacity. rewrite Q in I. rewrite (SetsProofs.row_size chk I), (SetsProofs.row_capacity chk I). cbn [bind].
      replace (length A + 1) with (length (A ++ [(r, k)])) by (rewrite app_length; reflexivity).
      rewrite (IH (A ++ [(r, k)])) by (rewrite <- app_assoc; exact Q). f_equal. rewrite <- andb_assoc. f_equal. f_equal.
      destruct (Nat.eqb_spec (length r) (length r + k)), (Nat.eqb_spec k 0); auto; lia. }
  exact (G L [] true eq_refl).
Qed.
Lemma full_offsets L : full L = true -> forall n, AoALayout.offsets n L = starts n (map fst L).
Proof.
  induction L as [|[r k] L IH]; simpl; intros H n; [reflexivity|]. apply andb_prop in H. destruct H as [H H']. apply Nat.eqb_eq in H. subst k.
  f_equal. unfold AoALayout.wid. simpl. rewrite Nat.add_0_r. apply IH. exact H'.
Qed.
Lemma full_flat {X} (g : E -> X) L : full L = true -> AoALayout.flat g L = map (@MemProofs.LV X) (map g (concat (map fst L))).
Proof.
  induction L as [|[r k] L IH]; simpl; intros H; [reflexivity|]. apply andb_prop in H. destruct H as [H H']. apply Nat.eqb_eq in H. subst k.
  unfold AoALayout.cells. simpl. rewrite app_nil_r, !map_app. f_equal. apply IH. exact H'.
Qed.
Lemma read_buf_ok {X} (b : buf X) (l : list X) k : MemProofs.mem true b (map (@MemProofs.LV X) l ++ repeat MemProofs.LN k) ->
  forall n i, i + n = length l -> read_buf b i n = Ok (skipn i l).
Proof.
  intros M. induction n as [|n IH]; intros i Q; simpl; [rewrite skipn_all2 by lia; reflexivity|].
  destruct (nth_error l i) as [v|] eqn:N; [|apply nth_error_None in N; lia].
  assert (Rd : rd b i = Ok v). { eapply MemProofs.rd_nth; [exact M|]. rewrite nth_error_app1 by (rewrite map_length; lia). rewrite nth_error_map, N. reflexivity. }
  rewrite Rd. cbn [bind]. rewrite IH by lia. cbn [bind]. rewrite (PyArraysProofs.skipn_nth N). reflexivity.
Qed.
Lemma starts_len (M : list (list E)) : forall n, length (starts n M) = length M + 1.
Proof. induction M; intros n; simpl; auto. Qed.
Lemma starts_last (M : list (list E)) : forall n, nth_error (starts n M) (length M) = Some (n + length (concat M)).
Proof. induction M as [|r M IH]; intros n; simpl; [f_equal; lia|]. rewrite IH, app_length. f_equal. lia. Qed.
Lemma toSciPy_ok p M nc lev b : kok p M nc -> isCompressed chk p = Ok b ->
  k_toSciPy chk (st p lev) = Ok (st p lev, match M with [] => KRaise ERuntime | _ => if negb b then KRaise ERuntime else
     KCsr (MODIFIABLE <=? lev)%Z (map snd (concat M)) (map fst (concat M)) (starts 0 M) (length M, nc) end).
Proof.
  intros R C. destruct (kok_rows R) as (L & H & EM). pose proof C as C0. rewrite (isCompressed_ok H) in C0. injection C0 as <-.
  unfold k_toSciPy. cbn [pc_matrix]. rewrite C. cbn [bind]. rewrite (kok_num R), (kok_cols R).
  destruct (full L) eqn:Fu; cbn [negb].
  - destruct M as [|r0 M0] eqn:EqM; [reflexivity|]. replace (length (r0 :: M0) =? 0) with false by reflexivity.
    destruct L as [|[r k] L']; [discriminate|]. pose proof H as [I [Lv Le]].
    pose proof (CRSProofs2.row_entries chk (A := []) I) as E1. cbn [length AoALayout.flat flat_map] in E1. rewrite E1. cbn [bind].
    pose proof (SetsProofs.row_values fst chk (A := []) I) as E2. cbn [length AoALayout.flat flat_map] in E2. rewrite E2. cbn [bind].
    pose proof (full_offsets Fu 0) as Of. rewrite EM in Of. destruct I as (N & (q & Ho) & _). rewrite Of in Ho.
    assert (E3 : offset (rows p) (length (r0 :: M0)) = Ok (length (concat (r0 :: M0)))).
    { unfold offset. eapply MemProofs.rd_nth; [exact Ho|]. rewrite nth_error_app1 by (rewrite map_length, starts_len; lia).
      rewrite nth_error_map, starts_last. reflexivity. }
    rewrite E3. cbn [bind]. destruct Lv as [kv Lv]. destruct (Le eq_refl) as [ke Le']. rewrite (full_flat _ Fu) in Lv. rewrite (full_flat _ Fu) in Le'. rewrite EM in Lv, Le'.
    rewrite (read_buf_ok Le') by (rewrite map_length; reflexivity). cbn [bind]. rewrite (read_buf_ok Lv) by (rewrite map_length; reflexivity). cbn [bind].
    rewrite (read_buf_ok Ho) by (rewrite starts_len; reflexivity). reflexivity.
  - destruct M; reflexivity.
Qed.
Lemma compress_ok p M nc : kok p M nc -> exists p', sp_compress chk true true p = Ok p' /\ kok p' M nc /\ isCompressed chk p' = Ok true.
Proof.
  intros R. pose proof R as [((L & H & F) & Nc & G) I]. cbn [fst snd] in *.
  destruct (@AoAProofs2.compress_ok E Z W fst snd chk true true true (rows p) L H) as (a' & Ea & H').
  exists (mkSP a' (ncols p)). unfold sp_compress, on_rows. rewrite Ea. cbn [bind]. split; [reflexivity|]. split.
  - split; [|exact I]. split; [|split; [exact Nc|exact G]]. cbn [fst rows]. exists (AoAProofs2.closed L). split; [exact H'|].
    clear -F. unfold AoAProofs2.closed. revert F. generalize (members M). intros S F. induction F as [|[r k] S0 L' SS [X Y] F IH]; constructor; [split; assumption|exact IH].
  - rewrite (isCompressed_ok (p := mkSP a' (ncols p)) H'). f_equal. unfold AoAProofs2.closed, full. clear. induction L; simpl; auto.
Qed.

(** ** The methods *)
Notation kstep := (k_step chk add safe convc conve ctype etype cmax imax host).
Notation call := (mat_call add safe convc conve ctype etype host).
Notation allowed_ := (k_allowed safe convc conve ctype etype cmax imax).
Definition rows_of (x : list (list E) * nat * Z * kres W) := fst (fst (fst x)).
Definition cols_of (x : list (list E) * nat * Z * kres W) := snd (fst (fst x)).
Definition level_of (x : list (list E) * nat * Z * kres W) := snd (fst x).
Definition good (b : bool) (c : kcall W) (M : list (list E)) (nc : nat) (lev : Z) (m : outcome (pycrs W * kres W)) : Prop :=
  let x := call b c M nc lev in
  exists p', m = Ok (st p' (level_of x), snd x) /\ kok p' (rows_of x) (cols_of x).

Lemma arg_ok p M nc lev x : kok p M nc ->
  k_arg chk ctype (st p lev) x = Ok (match no_columns M x with
    | Some e => inr e
    | None => inl (match x with KObj obj => obj | KOwn k => Some (mkN 1 false ctype (map fst (nth (Z.to_nat k) M []))) end) end).
Proof.
  intros R. destruct x as [obj|k]; [reflexivity|]. cbn [k_arg no_columns]. rewrite (getColumns_ok lev k R). cbn [bind].
  destruct (in_ll k); cbn [negb]; [|reflexivity]. destruct (plain (length M) k) as [i|] eqn:P; [|reflexivity].
  apply PyArraysProofs.plain_some in P. destruct P as (_ & -> & _). reflexivity.
Qed.
Definition object_of (M : list (list E)) (x : kcols) : option (npy Z) :=
  match x with KObj obj => obj | KOwn k => Some (mkN 1 false ctype (map fst (nth (Z.to_nat k) M []))) end.
Lemma parse_object M x : parseNumPyArray safe convc ctype (object_of M x) = columns_of safe convc ctype x.
Proof. destruct x; reflexivity. Qed.
Lemma both_object M x es : parse_both safe convc conve ctype etype (object_of M x) es = both safe convc conve ctype etype x es.
Proof.
  unfold parse_both, both. rewrite parse_object. destruct (columns_of safe convc ctype x), (parseNumPyArray safe conve etype es); reflexivity.
Qed.
Ltac stay p R := exists p; split; [reflexivity|exact R].

Lemma k_step_ok c p M nc lev b : allowed_ c M nc -> kok p M nc -> isCompressed chk p = Ok b -> good b c M nc lev (kstep c (st p lev)).
Proof.
  intros A R Cb. unfold good, rows_of, cols_of, level_of.
  destruct c as [| |row|row|row j v|row j w| |nr nc' cap| |row x es|row x|row x es| |l sp]; cbn [k_step mat_call].
  - cbn [pc_matrix]. rewrite (kok_num R). stay p R.
  - cbn [pc_matrix]. rewrite (kok_cols R). stay p R.
  - rewrite (getColumns_ok lev row R). destruct (in_ll row); cbn [negb]; [|stay p R]. destruct (plain (length M) row); stay p R.
  - rewrite (getEntries_ok lev row R). destruct (in_ll row); cbn [negb]; [|stay p R]. destruct (plain (length M) row); stay p R.
  - unfold k_setColumn. rewrite (getColumns_ok lev row R). cbn [bind]. destruct (in_ll row); cbn [negb]; [|stay p R]. destruct (plain (length M) row); stay p R.
  - unfold k_setEntry. rewrite (getEntries_ok lev row R). cbn [bind]. destruct (in_ll row); cbn [negb]; [|stay p R].
    destruct (plain (length M) row) as [k|] eqn:P; [|stay p R]. apply PyArraysProofs.plain_some in P. destruct P as (_ & -> & L).
    cbn [pc_matrix]. destruct (lev =? 0)%Z; cbn [negb]; [stay p R|]. rewrite map_length. unfold norm.
    destruct (in_ll j); cbn [negb andb]; [|stay p R]. set (k := Z.to_nat row) in *. set (n := length (nth k M [])).
    destruct (Z.ltb_spec j 0) as [J|J].
    + replace (0 <=? j)%Z with false by (symmetry; apply Z.leb_gt; exact J). cbn [andb].
      destruct (Z.leb_spec 0 (j + Z.of_nat n)) as [K|K].
      * replace ((j + Z.of_nat n <? 0)%Z || (Z.of_nat n <=? j + Z.of_nat n)%Z) with false
          by (symmetry; apply orb_false_iff; split; [apply Z.ltb_ge; lia|apply Z.leb_gt; lia]).
        destruct (@set_entry_ok p M nc k (Z.to_nat (j + Z.of_nat n)) w R L) as (p' & Q & R'); [fold n; lia|]. rewrite Q. cbn [bind]. stay p' R'.
      * replace ((j + Z.of_nat n <? 0)%Z || (Z.of_nat n <=? j + Z.of_nat n)%Z) with true by (symmetry; apply orb_true_iff; left; apply Z.ltb_lt; lia). stay p R.
    + replace (0 <=? j)%Z with true by (symmetry; apply Z.leb_le; exact J). cbn [andb orb].
      destruct (Z.ltb_spec j (Z.of_nat n)) as [K|K].
      * replace (j <? 0)%Z with false by (symmetry; apply Z.ltb_ge; exact J). replace (Z.of_nat n <=? j)%Z with false by (symmetry; apply Z.leb_gt; lia). cbn [orb].
        destruct (@set_entry_ok p M nc k (Z.to_nat j) w R L) as (p' & Q & R'); [fold n; lia|]. rewrite Q. cbn [bind]. stay p' R'.
      * replace (Z.of_nat n <=? j)%Z with true by (symmetry; apply Z.leb_le; lia). rewrite orb_true_r. stay p R.
  - rewrite (toSciPy_ok lev R Cb). destruct M; [stay p R|]. destruct b; stay p R.
  - unfold k_resize, resizing. cbn [pc_matrix pc_level]. destruct (lev <? RESIZEABLE)%Z; [stay p R|].
    destruct (in_ll nr && in_ll nc' && in_ll cap); cbn [negb]; [|stay p R].
    destruct ((nr <? 0) || (nc' <? 0) || (cap <? 0))%Z eqn:Ng; [stay p R|]. apply orb_false_iff in Ng. destruct Ng as [Ng _].
    apply orb_false_iff in Ng. destruct Ng as [_ Ng]. apply Z.ltb_ge in Ng.
    destruct A as [(A1 & A2 & A3 & A4) A5].
    replace ((imax <? nr) || (imax <? nc') || (imax <? cap))%Z with false
      by (symmetry; apply orb_false_iff; split; [apply orb_false_iff; split; apply Z.ltb_ge; lia|apply Z.ltb_ge; lia]).
    destruct (@resize_rows p M nc (Z.to_nat nr) (Z.to_nat nc') (Z.to_nat cap) R) as (p' & Q & R'); [lia|apply A5; lia|]. rewrite Q. cbn [bind]. stay p' R'.
  - unfold k_compress, resizing. cbn [pc_matrix pc_level]. destruct (lev <? RESIZEABLE)%Z; [stay p R|].
    destruct (compress_ok R) as (p' & Q & R' & _). rewrite Q. cbn [bind]. stay p' R'.
  - unfold with_columns. rewrite (arg_ok lev x R). cbn [bind]. destruct (no_columns M x) as [e|]; [stay p R|]. fold (object_of M x).
    unfold k_insert, resizing. cbn [pc_matrix pc_level]. destruct (lev <? RESIZEABLE)%Z; [stay p R|]. destruct (in_ll row); cbn [negb]; [|stay p R].
    rewrite both_object. destruct (both safe convc conve ctype etype x es) as [[cs ws]|e] eqn:B; [|stay p R].
    destruct (Nat.eqb_spec (length cs) (length ws)) as [Ln|Ln]; cbn [negb]; [|stay p R].
    pose proof (no_row_plain row R) as P. destruct (plain (length M) row) as [k|]; [|rewrite P; stay p R]. destruct P as (-> & <- & L).
    destruct (A cs ws B) as [A1 A2].
    assert (F1 : map fst (combine cs ws) = cs) by (rewrite combine_fst, <- Ln; apply firstn_all).
    assert (F2 : map snd (combine cs ws) = ws) by (apply combine_snd; lia).
    destruct (@insert_row p M nc k (combine cs ws) R L) as (p' & r & Q & R' & G); [rewrite F1; exact A1|rewrite F1; exact A2|].
    rewrite F1, F2 in Q. rewrite Q. cbn [bind]. rewrite G. stay p' R'.
  - unfold with_columns. rewrite (arg_ok lev x R). cbn [bind]. destruct (no_columns M x) as [e|]; [stay p R|]. fold (object_of M x).
    unfold k_remove, resizing. cbn [pc_matrix pc_level]. destruct (lev <? RESIZEABLE)%Z; [stay p R|]. destruct (in_ll row); cbn [negb]; [|stay p R].
    rewrite parse_object. cbn [k_allowed] in A. destruct (columns_of safe convc ctype x) as [cs|e] eqn:B; [|stay p R].
    pose proof (no_row_plain row R) as P. destruct (plain (length M) row) as [k|]; [|rewrite P; stay p R]. destruct P as (-> & <- & L).
    destruct (@remove_row p M nc k cs R L (A cs eq_refl)) as (p' & r & Q & R' & G). rewrite Q. cbn [bind]. rewrite G. stay p' R'.
  - unfold with_columns. rewrite (arg_ok lev x R). cbn [bind]. destruct (no_columns M x) as [e|]; [stay p R|]. fold (object_of M x).
    unfold k_add, resizing. cbn [pc_matrix pc_level]. destruct (lev <? RESIZEABLE)%Z; [stay p R|]. destruct (in_ll row); cbn [negb]; [|stay p R].
    rewrite both_object. cbn [k_allowed] in A. destruct (both safe convc conve ctype etype x es) as [[cs ws]|e] eqn:B; [|stay p R].
    destruct (A cs ws eq_refl) as [A1 A2].
    pose proof (no_row_plain row R) as P. destruct (plain (length M) row) as [k|]; [|rewrite P; stay p R]. destruct P as (-> & <- & L).
    destruct (@add_row p M nc k (combine cs ws) R L) as (p' & Q & R'); [rewrite combine_fst; apply A2; reflexivity|].
    rewrite Q. cbn [bind]. replace (length cs <? length ws) with false by (symmetry; apply Nat.ltb_ge; exact A1). stay p' R'.
  - stay p R.
  - cbn [pc_matrix]. destruct (in_int l && in_int sp); cbn [negb]; [|stay p R]. destruct (sp =? host)%Z; cbn [negb]; stay p R.
Qed.
Lemma compressed_ex p M nc : kok p M nc -> exists b, isCompressed chk p = Ok b.
Proof. intros R. destruct (kok_rows R) as (L & H & _). rewrite (isCompressed_ok H). eauto. Qed.
Lemma call_state b b' c M nc lev : fst (call b c M nc lev) = fst (call b' c M nc lev).
Proof. destruct c; try reflexivity. cbn [mat_call]. destruct M; [reflexivity|]. destruct b, b'; reflexivity. Qed.
Lemma k_run_ok h : forall p M nc lev, k_valid add safe convc conve ctype etype cmax imax host h M nc lev -> kok p M nc ->
  exists p' flags, length flags = length h /\
    let x := mat_calls add safe convc conve ctype etype host flags h M nc lev in
    k_run chk add safe convc conve ctype etype cmax imax host h (st p lev) = Ok (st p' (snd (fst x)), snd x) /\
    kok p' (fst (fst (fst x))) (snd (fst (fst x))).
Proof.
  induction h as [|c h IH]; intros p M nc lev V R; [exists p, []; cbn; auto|]. cbn [k_valid] in V. destruct V as [A V].
  destruct (compressed_ex R) as [b Cb]. destruct (k_step_ok lev A R Cb) as (p1 & E1 & R1). unfold rows_of, cols_of, level_of in *.
  pose proof (call_state true b c M nc lev) as St. destruct (call true c M nc lev) as [[[M1 n1] v1] r1].
  destruct (call b c M nc lev) as [[[M1' n1'] v1'] r1'] eqn:Cl. cbn [fst snd] in *. injection St as <- <- <-.
  destruct (IH p1 M1 n1 v1 V R1) as (p2 & flags & Lf & E2 & R2).
  exists p2, (b :: flags). cbn [k_run mat_calls length]. rewrite E1. cbn [bind]. rewrite E2. cbn [bind]. rewrite Cl.
  destruct (mat_calls add safe convc conve ctype etype host flags h M1 n1 v1) as [[[M2 n2] v2] rs]. cbn [fst snd] in *.
  split; [lia|]. split; [reflexivity|exact R2].
Qed.
End Matrix.
