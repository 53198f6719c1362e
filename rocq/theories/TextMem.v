(** Printing and reading an array, reduced to text: what [show] prints and what [read] stores, in terms of
    a parser which builds no array. *)
From Coq Require Import List Arith ZArith Ascii Lia Bool Permutation.
From Verif Require Import Base BaseProofs Mem MemProofs ArrayManipProofs BufferManipProofs.
From Verif Require Import Indexing IndexingSpec IndexingProofs IndexingProofs2 Array ArraySpec ArrayProofs ArrayProofs2.
From Verif Require Import Text TextSpec.
From Verif Require ArrayManip BufferManip.
Import ListNotations.
Set Implicit Arguments.
Unset Strict Implicit.

Section TMem.
Variable V : Type.
Variable print : V -> text.
Variable conv : text -> option (V * text).
Variable chk triv : bool.
Variable perm : list nat.
Variable dflt : V.
Hypothesis P : is_permutation perm (length perm).
Hypothesis NZ : 0 < length perm.
Notation array := (array V).
Notation arr_ok := (@arr_ok V triv perm).
Notation at_ := (@at_ V chk perm).

(** ** The parser *)
Section Items.
Variable A : Type.
Variable p : text -> option (A * text).
Fixpoint items (d : nat) (t : text) : option (list A * text) :=
  match d with
  | O => Some ([], t)
  | S d' => match p (skip t) with
            | None => None
            | Some (f, t1) => match items d' t1 with None => None | Some (fs, t2) => Some (f :: fs, t2) end
            end
  end.
End Items.
Definition gather_fn (fs : list (list Z -> V)) (idx : list Z) : V :=
  match idx with i :: r => nth (Z.to_nat i) fs (fun _ => dflt) r | [] => dflt end.
Fixpoint parse (ds : list nat) (t : text) : option ((list Z -> V) * text) :=
  match ds with
  | [] => match extract conv t with Some (v, t') => Some (fun _ => v, t') | None => None end
  | d :: ds' =>
      match expect c_open t with
      | Ok t1 =>
          match items (parse ds') d t1 with
          | Some (fs, t2) => match expect c_close (skip t2) with
                             | Ok t3 => Some (gather_fn fs, t3)
                             | _ => None
                             end
          | None => None
          end
      | _ => None
      end
  end.

Lemma expect_cases c t : (exists t', t = c :: t' /\ expect c t = Ok t') \/ expect c t = Abort.
Proof.
  destruct t as [|x t]; [right; reflexivity|]. simpl. unfold is. destruct (Ascii.eqb_spec x c); subst; eauto.
Qed.

(** ** Subslices of an array *)
Definition sub (dims : list nat) (pre : list Z) (s : slice) : Prop :=
  unit_ok s /\
  (forall rest, valid_index (s_dims s) rest ->
     valid_index dims (pre ++ rest) /\
     (s_off s + zdot (s_strides s) rest)%Z = Z.of_nat (slotn perm dims (pre ++ rest))).

Lemma sub_whole a vs : arr_ok a vs -> sub (a_dims a) [] (toSlice perm a).
Proof.
  intros A. pose proof A as (L & S & R & LV & H).
  assert (U : unit_ok (toSlice perm a)).
  { unfold toSlice. rewrite S. apply (@unit_ok_whole perm (a_dims a)); [rewrite L; exact P|lia]. }
  split; [exact U|]. intros rest Vr. split; [exact Vr|].
  destruct (@call_slot V chk triv perm P NZ a vs rest A Vr) as [C _].
  rewrite slice_call_valid in C by exact Vr. injection C as C. cbn [app].
  rewrite <- C. f_equal. symmetry. apply getLinearIndex_zdot.
  - rewrite (valid_len Vr). destruct U as [U _]. symmetry. exact U.
  - apply U.
Qed.

Lemma sub_index dims pre s d ds i : sub dims pre s -> s_dims s = d :: ds -> (0 <= i < Z.of_nat d)%Z ->
  exists s', slice_index chk s i = Ok s' /\ s_dims s' = ds /\ sub dims (pre ++ [i]) s'.
Proof.
  intros [U H] D B. destruct (s_strides s) as [|st sts] eqn:St.
  { exfalso. destruct U as [U _]. rewrite D, St in U. discriminate. }
  destruct (@slice_index_ok chk s i d ds st sts D St U B) as [E U'].
  eexists. split; [exact E|]. split; [reflexivity|]. split; [exact U'|].
  intros rest Vr. cbn [s_dims s_off s_strides] in *. destruct (H (i :: rest)) as [W Q].
  { rewrite D. constructor; auto. }
  try rewrite St in Q. cbn [zdot] in Q. rewrite <- app_assoc. cbn [app]. split; [exact W|]. lia.
Qed.

Definition withb (a : array) (b : buf V) : array := mkArray (a_dims a) (a_strides a) (a_rix a) b.

Lemma sub_leaf a vs pre s v : arr_ok a vs -> sub (a_dims a) pre s -> s_dims s = [] ->
  exists b vs', (i <- to_ix (s_off s) ;; assign triv (a_buf a) i v) = Ok b /\
    arr_ok (withb a b) vs' /\ at_ (withb a b) pre = Ok v /\
    (forall idx, valid_index (a_dims a) idx -> idx <> pre -> at_ (withb a b) idx = at_ a idx).
Proof.
  intros A [U H] D. destruct (H []) as [W Q]; [rewrite D; constructor|].
  destruct U as [U _]. rewrite D in U. destruct (s_strides s); [|discriminate]. cbn [zdot] in Q.
  rewrite app_nil_r in *. rewrite Z.add_0_r in Q.
  destruct (@set_valid V chk triv perm P NZ a vs pre v A W) as (a' & E & A' & D' & R').
  unfold set_ in E. destruct (@call_slot V chk triv perm P NZ a vs pre A W) as [C Lt]. rewrite C in E.
  cbn [bind] in E. rewrite to_ix_nat in E. cbn [bind] in E.
  rewrite Q, to_ix_nat. cbn [bind].
  destruct (assign triv (a_buf a) (slotn perm (a_dims a) pre) v) as [b| |] eqn:Eb; try discriminate.
  cbn [bind] in E. injection E as <-. change (mkArray _ _ _ b) with (withb a b) in *.
  exists b, (upd vs (slotn perm (a_dims a) pre) v). split; [reflexivity|]. split; [exact A'|].
  split.
  - destruct (@at_ok V chk triv perm P NZ _ _ pre A' W) as (x & X & ->). cbn [withb a_dims] in X.
    rewrite nth_error_upd_eq in X by exact Lt. congruence.
  - intros idx Vi N.
    destruct (@at_ok V chk triv perm P NZ _ _ idx A' Vi) as (x & X & ->). cbn [withb a_dims] in X.
    destruct (@at_ok V chk triv perm P NZ _ _ idx A Vi) as (y & Y & ->).
    rewrite nth_error_upd_ne in X; [congruence|]. intros Es. apply N.
    destruct (@call_slot V chk triv perm P NZ a vs idx A Vi) as [C' _].
    rewrite <- Es, <- C in C'. rewrite !slice_call_valid in C' by assumption. injection C' as C'.
    pose proof A as (L & S & R & LV & Hh). unfold toSlice in C'. cbn [s_off s_usd s_strides] in C'. rewrite S in C'.
    apply (@linear_index_injective perm (a_dims a)); auto; [rewrite L; auto|lia].
Qed.

Lemma sub_read a vs pre s : arr_ok a vs -> sub (a_dims a) pre s -> s_dims s = [] ->
  (i <- to_ix (s_off s) ;; rd (a_buf a) i) = at_ a pre /\ exists v, at_ a pre = Ok v.
Proof.
  intros A [U H] D. destruct (H []) as [W Q]; [rewrite D; constructor|].
  destruct U as [U _]. rewrite D in U. destruct (s_strides s); [|discriminate]. cbn [zdot] in Q.
  rewrite app_nil_r in *. rewrite Z.add_0_r in Q.
  destruct (@call_slot V chk triv perm P NZ a vs pre A W) as [C Lt].
  destruct (@at_ok V chk triv perm P NZ _ _ pre A W) as (x & X & E).
  split; [|eauto]. unfold Array.at_. rewrite C. cbn [bind]. rewrite to_ix_nat, Q, to_ix_nat. reflexivity.
Qed.

(** ** What read stores *)
Definition under (pre idx : list Z) : Prop := exists r, idx = pre ++ r.
Definition stored (a a' : array) (pre : list Z) (ds : list nat) (f : list Z -> V) : Prop :=
  a_dims a' = a_dims a /\ a_rix a' = a_rix a /\ (exists vs, arr_ok a' vs) /\
  (forall r, valid_index ds r -> at_ a' (pre ++ r) = Ok (f r)) /\
  (forall idx, valid_index (a_dims a) idx -> ~ under pre idx -> at_ a' idx = at_ a idx).

Lemma under_dec pre idx : {under pre idx} + {~ under pre idx}.
Proof.
  destruct (list_eq_dec Z.eq_dec idx (firstn (length pre) idx ++ skipn (length pre) idx)) as [E|E].
  - destruct (list_eq_dec Z.eq_dec pre (firstn (length pre) idx)) as [Q|Q].
    + left. exists (skipn (length pre) idx). rewrite Q at 1. exact E.
    + right. intros [r ->]. apply Q. symmetry. apply firstn_app_exact. reflexivity.
  - exfalso. apply E. symmetry. apply firstn_skipn.
Qed.

Lemma withb_id (a : array) : withb a (a_buf a) = a.
Proof. destruct a; reflexivity. Qed.

Lemma read_parse : forall ds a vs pre s t,
  arr_ok a vs -> sub (a_dims a) pre s -> s_dims s = ds ->
  match parse ds t with
  | None => read conv chk triv (length ds) s (t, a_buf a) = Abort
  | Some (f, t') => exists b, read conv chk triv (length ds) s (t, a_buf a) = Ok (t', b) /\ stored a (withb a b) pre ds f
  end.
Proof.
  induction ds as [|d ds IH]; intros a vs pre s t A Sb D; cbn [parse length read fst snd].
  - destruct (extract conv t) as [[v t']|]; [|reflexivity].
    destruct (@sub_leaf a vs pre s v A Sb D) as (b & vs' & E & A' & N & O).
    exists b. destruct (to_ix (s_off s)) as [i| |]; try discriminate. cbn [bind] in E |- *. rewrite E. cbn [bind].
    split; [reflexivity|]. repeat split; auto; [eauto| |].
    + intros r Hr. inversion Hr; subst. rewrite app_nil_r. exact N.
    + intros idx Vi Nu. apply O; auto. intros ->. apply Nu. exists []. rewrite app_nil_r. reflexivity.
  - destruct (expect_cases c_open t) as [(t1 & -> & ->)| ->]; [|reflexivity]. cbn [bind]. rewrite D.
    (* the loop over the first dimension *)
    cbv zeta. match goal with |- context [for_up d ?f 0 _] => set (body := f) end.
    assert (G : forall n j a vs t, j + n = d -> arr_ok a vs -> sub (a_dims a) pre s ->
      match items (parse ds) n t with
      | None => for_up n body j (t, a_buf a) = Abort
      | Some (fs, t') => length fs = n /\ exists b, for_up n body j (t, a_buf a) = Ok (t', b) /\
          a_dims (withb a b) = a_dims a /\ (exists vs, arr_ok (withb a b) vs) /\
          (forall i r, i < n -> valid_index ds r -> at_ (withb a b) (pre ++ Z.of_nat (j + i) :: r) = Ok (nth i fs (fun _ => dflt) r)) /\
          (forall idx, valid_index (a_dims a) idx -> (forall i, i < n -> ~ under (pre ++ [Z.of_nat (j + i)]) idx) ->
             at_ (withb a b) idx = at_ a idx)
      end).
    { clear A Sb a vs t1. induction n as [|n IHn]; intros j a vs t J A Sb; cbn [items for_up].
      - split; [reflexivity|]. exists (a_buf a). rewrite withb_id. repeat split; eauto; intros; lia.
      - destruct (@sub_index (a_dims a) pre s d ds (Z.of_nat j) Sb D) as (s' & E & D' & Sb'); [lia|].
        assert (B : forall t b, body j (t, b) = read conv chk triv (length ds) s' (skip t, b)).
        { intros t0 b0. unfold body. cbn [fst snd]. rewrite E. reflexivity. }
        rewrite !B.
        specialize (IH a vs (pre ++ [Z.of_nat j]) s' (skip t) A Sb' D').
        destruct (parse ds (skip t)) as [[f t1]|]; [|rewrite IH; reflexivity].
        destruct IH as (b1 & -> & (Dd & Rr & (vs1 & A1) & W1 & K1)). cbn [bind].
        specialize (IHn (j + 1) (withb a b1) vs1 t1 ltac:(lia) A1 Sb). cbn [withb a_buf] in IHn.
        destruct (items (parse ds) n t1) as [[fs t2]|]; [|exact IHn].
        destruct IHn as (Lf & b & E2 & Dn & Ok2 & W2 & K2).
        change (withb (withb a b1) b) with (withb a b) in *.
        split; [simpl; lia|]. exists b. split; [exact E2|]. split; [reflexivity|]. split; [exact Ok2|]. split.
        + intros [|i] r Hi Vr.
          * cbn [nth]. rewrite Nat.add_0_r. rewrite K2.
            -- specialize (W1 r Vr). rewrite <- app_assoc in W1. exact W1.
            -- destruct Sb' as [_ Sb']. rewrite D' in Sb'. destruct (Sb' r Vr) as [X _].
               rewrite <- app_assoc in X. exact X.
            -- intros i Hi' [q Q]. rewrite <- app_assoc in Q. apply app_inv_head in Q. cbn in Q. injection Q as Q _. lia.
          * cbn [nth]. replace (j + S i) with (j + 1 + i) by lia. apply W2; [lia|exact Vr].
        + intros idx Vi N. rewrite K2; auto.
          * apply K1; auto. specialize (N 0 ltac:(lia)). rewrite Nat.add_0_r in N. exact N.
          * intros i Hi. specialize (N (S i) ltac:(lia)). replace (j + 1 + i) with (j + S i) by lia. exact N. }
    specialize (G d 0 a vs t1 eq_refl A Sb).
    destruct (items (parse ds) d t1) as [[fs t2]|]; [|rewrite G; reflexivity].
    destruct G as (Lf & b & -> & Dn & Ok2 & W & K). cbn [bind fst snd].
    destruct (expect_cases c_close (skip t2)) as [(t3 & -> & ->)| ->]; [|reflexivity]. cbn [bind].
    exists b. split; [reflexivity|]. split; [reflexivity|]. split; [reflexivity|]. split; [exact Ok2|]. split.
    + intros r Hr. inversion Hr as [|i ? r' ? Hi Hr' E1 E2]; subst. cbn [gather_fn].
      specialize (W (Z.to_nat i) r'). cbn [Nat.add] in W. rewrite Z2Nat.id in W by lia. apply W; auto. lia.
    + intros idx Vi N. apply K; auto. intros i Hi [r ->]. apply N. exists (Z.of_nat (0 + i) :: r). rewrite <- app_assoc. reflexivity.
Qed.

(** ** What show prints *)
Lemma show_spaced (f : list Z -> V) : forall ds a vs pre s,
  arr_ok a vs -> sub (a_dims a) pre s -> s_dims s = ds ->
  (forall r, valid_index ds r -> at_ a (pre ++ r) = Ok (f (pre ++ r))) ->
  show print chk (length ds) s (a_buf a) = Ok (spaced ds (fun r => print (f (pre ++ r)))).
Proof.
  induction ds as [|d ds IH]; intros a vs pre s A Sb D F; cbn [show length].
  - destruct (@sub_read a vs pre s A Sb D) as [E (v & Ev)].
    destruct (to_ix (s_off s)) as [i| |]; try (cbn [bind] in E; rewrite Ev in E; discriminate).
    cbn [bind] in E |- *. rewrite E. specialize (F [] (Forall2_nil _)). rewrite app_nil_r in F. rewrite F.
    unfold spaced. cbn. rewrite app_nil_r. reflexivity.
  - rewrite D.
    set (item := fun i => spaced ds (fun r => print (f (pre ++ Z.of_nat i :: r)))).
    assert (S1 : forall i, i < d -> exists s', slice_index chk s (Z.of_nat i) = Ok s' /\ show print chk (length ds) s' (a_buf a) = Ok (item i)).
    { intros i Hi. destruct (@sub_index (a_dims a) pre s d ds (Z.of_nat i) Sb D) as (s' & E & D' & Sb'); [lia|].
      exists s'. split; [exact E|]. rewrite (IH a vs (pre ++ [Z.of_nat i]) s' A Sb' D').
      - unfold item. f_equal. 
        assert (X : forall ds (g h : list Z -> text) o m c, (forall r, g r = h r) -> nested o m c ds g = nested o m c ds h).
        { clear. induction ds as [|d ds IH]; intros g h o m c E; cbn [nested]; [apply E|]. f_equal. f_equal. f_equal.
          apply map_ext. intros i. apply IH. intros r. apply E. }
        apply X. intros r. rewrite <- app_assoc. reflexivity.
      - intros r Vr. rewrite <- app_assoc. cbn [app]. apply F. constructor; auto. lia. }
    unfold spaced. cbn [nested]. fold (spaced ds). 
    change (map _ (seq 0 d)) with (map item (seq 0 d)).
    destruct d as [|d].
    + cbn. reflexivity.
    + change (0 <? S d) with true. cbv beta iota. destruct (S1 0 ltac:(lia)) as (s0 & E0 & Q0). cbn [Z.of_nat] in E0.
      rewrite E0. cbn [bind]. rewrite Q0. cbn [bind]. replace (S d - 1) with d by lia.
      assert (G : forall n j out, j + n = S d ->
        for_up n (fun i out => s' <- slice_index chk s (Z.of_nat i) ;; x <- show print chk (length ds) s' (a_buf a) ;;
                               Ok (out ++ [c_comma; c_space] ++ x)) j out
        = Ok (out ++ concat (map (fun i => [c_comma; c_space] ++ item i) (seq j n)))).
      { induction n as [|n IHn]; intros j out J; cbn [for_up seq map concat].
        - rewrite app_nil_r. reflexivity.
        - destruct (S1 j ltac:(lia)) as (s' & -> & Q). cbn [bind]. rewrite Q. cbn [bind].
          rewrite IHn by lia. replace (j + 1) with (S j) by lia. rewrite <- app_assoc. reflexivity. }
      rewrite G by lia. cbn [bind]. f_equal. rewrite <- !app_assoc. f_equal. cbn [seq map].
      assert (Jn : forall n j x, x ++ concat (map (fun i => [c_comma; c_space] ++ item i) (seq j n))
                               = join [","; " "]%char (x :: map item (seq j n))).
      { clearbody item. clear. induction n as [|n IH]; intros j x; cbn [seq map concat].
        - rewrite app_nil_r. reflexivity.
        - rewrite <- app_assoc. rewrite IH. reflexivity. }
      rewrite app_assoc, Jn. reflexivity.
Qed.

Lemma show_array_spaced a vs (f : list Z -> V) : arr_ok a vs ->
  (forall idx, valid_index (a_dims a) idx -> at_ a idx = Ok (f idx)) ->
  show_array print chk perm a = Ok (spaced (a_dims a) (fun idx => print (f idx))).
Proof.
  intros A F. unfold show_array. pose proof A as (L & _). rewrite <- L.
  apply (@show_spaced f (a_dims a) a vs [] (toSlice perm a) A); auto. eapply sub_whole; eauto.
Qed.

End TMem.
