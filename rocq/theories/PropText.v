(** Properties C44 and C45: arrays as text. Statements use TextSpec, ArraySpec and IndexingSpec only
    (and the calls of the model). *)
From Coq Require Import String List Arith ZArith NArith Ascii Lia Bool.
From Verif Require Import Base BaseProofs Indexing IndexingSpec BufferManip Array ArraySpec.
From Verif Require Import Text TextSpec.
From Verif Require ArrayProofs ArrayProofs2 TextMem TextSound TextComplete TextTop.
Import ListNotations.

(** a is an array of extents dims reached by some history of calls. *)
Definition reached {V} (dflt : V) chk triv perm (dims : list nat) (a : array V) : Prop :=
  exists h r, Forall (static_ok (V:=V) (length perm)) h /\
    extents_after h (repeat 0 (length perm), 0) = Some (dims, r) /\
    run (nstep chk triv BMalloc perm dflt) h (new_array V BMalloc perm) = Ok a.

Lemma reached_ok {V} (dflt : V) chk triv perm dims a :
  is_permutation perm (length perm) -> 0 < length perm -> reached dflt chk triv perm dims a ->
  exists vs, ArrayProofs.arr_ok triv perm a vs /\ a_dims a = dims.
Proof.
  intros P NZ (h & r & F & X & E).
  destruct (@ArrayProofs2.nrun_ok V chk triv BMalloc perm dflt P NZ h (new_array V BMalloc perm) [] dims r eq_refl
    (ArrayProofs2.new_ok V triv BMalloc P NZ) F X) as (a' & E' & (vs & A) & D & _).
  rewrite E in E'. injection E' as <-. eauto.
Qed.
Lemma reached_values {V} (dflt : V) chk triv perm (a : array V) vs : is_permutation perm (length perm) -> 0 < length perm ->
  ArrayProofs.arr_ok triv perm a vs -> exists f, forall idx, valid_index (a_dims a) idx -> at_ chk perm a idx = Ok (f idx).
Proof.
  intros P NZ A. exists (fun idx => match at_ chk perm a idx with Ok v => v | _ => dflt end). intros idx Vi.
  destruct (@ArrayProofs.at_ok V chk triv perm P NZ a vs idx A Vi) as (v & _ & E). rewrite E. reflexivity.
Qed.

(** ** C44 *)
(** operator<< prints the values in nested braces, whatever the permutation. *)
Theorem C44_text : forall V (dflt : V) print chk triv perm dims a,
  is_permutation perm (length perm) -> 0 < length perm -> reached dflt chk triv perm dims a ->
  exists f, (forall idx, valid_index dims idx -> at_ chk perm a idx = Ok (f idx)) /\
    show_array print chk perm a = Ok (spaced dims (fun idx => print (f idx))).
Proof.
  intros V dflt print chk triv perm dims a P NZ R. destruct (reached_ok _ _ _ _ _ _ P NZ R) as (vs & A & <-).
  destruct (reached_values dflt chk triv perm a vs P NZ A) as (f & F). exists f. split; [exact F|].
  eapply TextMem.show_array_spaced; eauto.
Qed.
Print Assumptions C44_text.

(** The text of an array read into any array of the same rank gives the same extents and values, if each
    value is printed as a token which reads back as the value. *)
Theorem C44_round_trip : forall V (dflt : V) print conv chk triv perm dims a perm' dims' b,
  is_permutation perm (length perm) -> 0 < length perm -> reached dflt chk triv perm dims a ->
  is_permutation perm' (length perm') -> length perm' = length perm -> reached dflt chk triv perm' dims' b ->
  Forall (fun d => 0 < d) dims ->
  (forall idx v, valid_index dims idx -> at_ chk perm a idx = Ok v -> token (print v) /\ conv (print v) = Some (v, [])) ->
  exists s b', show_array print chk perm a = Ok s /\ stringToArray conv chk triv BMalloc perm' dflt b s = Ok b' /\
    a_dims b' = a_dims a /\ (forall idx, valid_index dims idx -> at_ chk perm' b' idx = at_ chk perm a idx) /\
    show_array print chk perm' b' = Ok s.
Proof.
  intros V dflt print conv chk triv perm dims a perm' dims' b P NZ R P' L' R' Ps H.
  destruct (reached_ok _ _ _ _ _ _ P NZ R) as (vs & A & D). assert (NZ' : 0 < length perm') by lia.
  destruct (reached_ok _ _ _ _ _ _ P' NZ' R') as (vs' & B & _).
  destruct (reached_values dflt chk triv perm a vs P NZ A) as (f & F). rewrite D in F.
  assert (T : TextComplete.tokens dims (fun idx => print (f idx))) by (intros r Hr; apply (H r (f r) Hr (F r Hr))).
  assert (Ld : length dims = length perm') by (rewrite <- D; destruct A as (La & _); congruence).
  destruct (@TextTop.accepts V conv chk triv perm' dflt P' NZ' b vs' (spaced dims (fun idx => print (f idx))) dims (fun idx => print (f idx)) f B Ld Ps T)
    as (b' & E & (vb & B') & Db & _ & Fb).
  - intros r Hr. apply (H r (f r) Hr (F r Hr)).
  - apply TextTop.delimited_spaced. exact T.
  - apply TextTop.squeeze_spaced. exact T.
  - exists (spaced dims (fun idx => print (f idx))), b'. split.
    + rewrite <- D. eapply TextMem.show_array_spaced; eauto. rewrite D. exact F.
    + split; [exact E|]. split; [congruence|]. split; [intros idx Hi; rewrite F, Fb by exact Hi; reflexivity|].
      rewrite <- Db. eapply TextMem.show_array_spaced; eauto. rewrite Db. exact Fb.
Qed.
Print Assumptions C44_round_trip.

(** ... which holds for the integers of any signed type, ... *)
Theorem C44_integers : forall lo hi (dflt : Z) chk triv perm dims a perm' dims' b,
  is_permutation perm (length perm) -> 0 < length perm -> reached dflt chk triv perm dims a ->
  is_permutation perm' (length perm') -> length perm' = length perm -> reached dflt chk triv perm' dims' b ->
  Forall (fun d => 0 < d) dims ->
  (forall idx v, valid_index dims idx -> at_ chk perm a idx = Ok v -> lo <= v <= hi)%Z ->
  exists s b', show_array print_int chk perm a = Ok s /\ stringToArray (conv_int lo hi) chk triv BMalloc perm' dflt b s = Ok b' /\
    a_dims b' = a_dims a /\ (forall idx, valid_index dims idx -> at_ chk perm' b' idx = at_ chk perm a idx).
Proof.
  intros lo hi dflt chk triv perm dims a perm' dims' b P NZ R P' L' R' Ps H.
  destruct (C44_round_trip Z dflt print_int (conv_int lo hi) chk triv perm dims a perm' dims' b P NZ R P' L' R' Ps)
    as (s & b' & E1 & E2 & E3 & E4 & _); [|exists s, b'; auto].
  intros idx v Hv Ha. split; [apply TextTop.print_int_token|]. apply TextTop.conv_print. eapply H; eauto.
Qed.
Print Assumptions C44_integers.

(** ... and for strings which are tokens. *)
Theorem C44_strings : forall (dflt : text) chk triv perm dims a perm' dims' b,
  is_permutation perm (length perm) -> 0 < length perm -> reached dflt chk triv perm dims a ->
  is_permutation perm' (length perm') -> length perm' = length perm -> reached dflt chk triv perm' dims' b ->
  Forall (fun d => 0 < d) dims ->
  (forall idx v, valid_index dims idx -> at_ chk perm a idx = Ok v -> token v) ->
  exists s b', show_array (fun v => v) chk perm a = Ok s /\ stringToArray conv_string chk triv BMalloc perm' dflt b s = Ok b' /\
    a_dims b' = a_dims a /\ (forall idx, valid_index dims idx -> at_ chk perm' b' idx = at_ chk perm a idx).
Proof.
  intros dflt chk triv perm dims a perm' dims' b P NZ R P' L' R' Ps H.
  destruct (C44_round_trip text dflt (fun v => v) conv_string chk triv perm dims a perm' dims' b P NZ R P' L' R' Ps)
    as (s & b' & E1 & E2 & E3 & E4 & _); [|exists s, b'; auto].
  intros idx v Hv Ha. specialize (H idx v Hv Ha). split; [exact H|]. destruct H as [Nn _]. destruct v; [congruence|reflexivity].
Qed.
Print Assumptions C44_strings.

(** An empty array of rank one round trips, too. *)
Theorem C44_empty : forall V (dflt : V) print conv chk triv a dims b,
  reached dflt chk triv [0] [0] a -> reached dflt chk triv [0] dims b ->
  exists s b', show_array print chk [0] a = Ok s /\ stringToArray conv chk triv BMalloc [0] dflt b s = Ok b' /\ a_dims b' = [0].
Proof.
  intros V dflt print conv chk triv a dims b R R'. assert (P : is_permutation [0] (length [0])) by (apply Permutation.Permutation_refl).
  destruct (C44_text V dflt print chk triv [0] [0] a P ltac:(cbn; lia) R) as (f & _ & E).
  destruct (reached_ok _ _ _ _ _ _ P ltac:(cbn; lia) R') as (vs & B & D). pose proof B as (Lb & _).
  destruct (@ArrayProofs2.nstep_ok V chk triv BMalloc [0] dflt P ltac:(cbn; lia) NClear b vs _ _ eq_refl B Logic.I eq_refl) as (b' & Eb & _ & Db & _).
  exists (spaced [0] (fun idx => print (f idx))), b'. split; [exact E|]. split.
  - rewrite TextTop.accepts_empty; [exact Eb| |reflexivity]. apply TextTop.delimited_spaced. intros r Hr. inversion Hr; subst. lia.
  - rewrite Db. destruct B as (L1 & _ & L2 & _). cbn in L1, L2. destruct (a_dims b) as [|d [|]]; try discriminate.
    assert (a_rix b = 0) as -> by lia. reflexivity.
Qed.
Print Assumptions C44_empty.

(** A 2x0 array is printed as text which is rejected, and a 0x2 one as text which leaves the other
    extents of the array it is read into as they were. *)
Example C44_empty_rank2_refuted :
  (a <- run (nstep true true BMalloc [0;1] 0%Z) [NResize [2;0]%Z] (new_array Z BMalloc [0;1]) ;;
   s <- show_array print_int true [0;1] a ;; b <- stringToArray (conv_int (-9) 9) true true BMalloc [0;1] 0%Z a s ;; Ok (a_dims b)) = Abort /\
  (a <- run (nstep true true BMalloc [0;1] 0%Z) [NResize [0;2]%Z] (new_array Z BMalloc [0;1]) ;;
   s <- show_array print_int true [0;1] a ;;
   b <- stringToArray (conv_int (-9) 9) true true BMalloc [0;1] 0%Z (new_array Z BMalloc [0;1]) s ;; Ok (a_dims b)) = Ok [0;0].
Proof. split; vm_compute; reflexivity. Qed.

Definition fill23 : list (ncall Z) :=
  [NResize [2;3]; NSet [0;0] 7; NSet [0;1] (-12); NSet [0;2] 305; NSet [1;0] 4; NSet [1;1] 0; NSet [1;2] (-1)]%Z.
Example C44_case :
  (a <- run (nstep true true BMalloc [1;0] 0%Z) fill23 (new_array Z BMalloc [1;0]) ;; show_array print_int true [1;0] a)
    = Ok (list_ascii_of_string "{ { 7, -12, 305 }, { 4, 0, -1 } }") /\
  (a <- run (nstep true true BMalloc [1;0] 0%Z) fill23 (new_array Z BMalloc [1;0]) ;;
   s <- show_array print_int true [1;0] a ;;
   b <- stringToArray (conv_int (-1000) 1000) true true BMalloc [0;1] 0%Z (new_array Z BMalloc [0;1]) s ;;
   v <- at_ true [0;1] b [0;2]%Z ;; Ok (a_dims b, v)) = Ok ([2;3], 305%Z).
Proof. split; vm_compute; reflexivity. Qed.

(** ** C45 *)
(** A rectangular nest of the right depth with readable tokens, written with spaces anywhere except
    inside tokens, is accepted and gives its extents and values. *)
Theorem C45_accepts : forall V (dflt : V) conv chk triv perm dims0 a str dims tok f,
  is_permutation perm (length perm) -> 0 < length perm -> reached dflt chk triv perm dims0 a ->
  delimited str -> squeeze str = compact dims tok ->
  length dims = length perm -> Forall (fun d => 0 < d) dims ->
  (forall idx, valid_index dims idx -> token (tok idx) /\ conv (tok idx) = Some (f idx, [])) ->
  exists a', stringToArray conv chk triv BMalloc perm dflt a str = Ok a' /\ a_dims a' = dims /\
    (forall idx, valid_index dims idx -> at_ chk perm a' idx = Ok (f idx)).
Proof.
  intros V dflt conv chk triv perm dims0 a str dims tok f P NZ R Dl Sq L Ps H.
  destruct (reached_ok _ _ _ _ _ _ P NZ R) as (vs & A & _).
  destruct (@TextTop.accepts V conv chk triv perm dflt P NZ a vs str dims tok f A L Ps) as (a' & E & _ & D & _ & F); auto.
  - intros r Hr. apply (H r Hr).
  - intros r Hr. apply (H r Hr).
  - exists a'. auto.
Qed.
Print Assumptions C45_accepts.

(** "{}" acts as clear(). *)
Theorem C45_accepts_empty : forall V (dflt : V) conv chk triv perm dims a str,
  is_permutation perm (length perm) -> 0 < length perm -> reached dflt chk triv perm dims a ->
  delimited str -> squeeze str = ["{"; "}"]%char ->
  exists a', stringToArray conv chk triv BMalloc perm dflt a str = Ok a' /\
    nstep chk triv BMalloc perm dflt NClear a = Ok a' /\ size a' = 0.
Proof.
  intros V dflt conv chk triv perm dims a str P NZ R Dl Sq. destruct (reached_ok _ _ _ _ _ _ P NZ R) as (vs & A & _).
  destruct (@ArrayProofs2.nstep_ok V chk triv BMalloc perm dflt P NZ NClear a vs _ _ eq_refl A Logic.I eq_refl) as (a' & E & (vs' & A') & D & _).
  exists a'. split; [rewrite TextTop.accepts_empty; auto|]. split; [exact E|]. rewrite (ArrayProofs.size_ok A'). pose proof A' as (_ & _ & _ & -> & _).
  rewrite D. destruct A as (La & _ & Lr & _). rewrite <- La in Lr. clear -Lr. revert Lr. generalize (a_rix a). induction (a_dims a) as [|d l IH]; intros r Hr; [cbn in Hr; lia|].
  destruct r as [|r]; [reflexivity|]. cbn in Hr. specialize (IH r ltac:(lia)). unfold set_ext in *. cbn [upd fst snd] in *.
  cbn [firstn skipn app]. cbn [app] in IH. change (d * extent_product (firstn r l ++ Z.to_nat 0 :: skipn (S r) l) = 0). rewrite IH. lia.
Qed.
Print Assumptions C45_accepts_empty.

(** Whatever is accepted is such a nest, read as written. The text has no white space but ' ', and
    extraction takes whole words or no comma stands in front of a closing brace. *)
Theorem C45_sound : forall V (dflt : V) conv chk triv perm dims0 a str a',
  is_permutation perm (length perm) -> 0 < length perm -> reached dflt chk triv perm dims0 a ->
  takes_prefix conv -> (forall c, In c str -> ~ other_white c) ->
  ~ adjacent ","%char "}"%char (squeeze str) \/ (takes_word conv /\ rejects_brace conv) ->
  stringToArray conv chk triv BMalloc perm dflt a str = Ok a' ->
  delimited str /\
  ((squeeze str = ["{"; "}"]%char /\ nstep chk triv BMalloc perm dflt NClear a = Ok a') \/
   exists dims tok f, length dims = length perm /\ Forall (fun d => 0 < d) dims /\ squeeze str = compact dims tok /\
     (forall idx, valid_index dims idx -> token (tok idx) /\ conv (tok idx) = Some (f idx, [])) /\
     a_dims a' = dims /\ (forall idx, valid_index dims idx -> at_ chk perm a' idx = Ok (f idx))).
Proof.
  intros V dflt conv chk triv perm dims0 a str a' P NZ R TP NW Md E. destruct (reached_ok _ _ _ _ _ _ P NZ R) as (vs & A & _).
  destruct (@TextTop.sound V conv chk triv perm dflt P NZ a vs str a' A E TP NW Md) as [Dl [[Sq H]|(dims & tok & f & L & Ps & Sq & Rs & _ & D & _ & F)]].
  - split; [exact Dl|]. left. auto.
  - split; [exact Dl|]. right. exists dims, tok, f. auto 10.
Qed.
Print Assumptions C45_sound.

(** The only undefined behaviour is indexing past the NDIM bookkeeping entries, and only when more than
    NDIM braces are open somewhere; such text is never accepted. *)
Theorem C45_faults : forall V (dflt : V) conv chk triv perm dims0 a str,
  is_permutation perm (length perm) -> 0 < length perm -> reached dflt chk triv perm dims0 a ->
  (forall f, stringToArray conv chk triv BMalloc perm dflt a str = Fault f -> f = FOob /\ too_deep (length perm) (squeeze str)) /\
  (too_deep (length perm) (squeeze str) -> forall a', stringToArray conv chk triv BMalloc perm dflt a str <> Ok a').
Proof.
  intros V dflt conv chk triv perm dims0 a str P NZ R. destruct (reached_ok _ _ _ _ _ _ P NZ R) as (vs & A & _). split.
  - intros f E. eapply TextTop.faults; eauto.
  - intros T a' E. eapply TextTop.deep_rejected; eauto.
Qed.
Print Assumptions C45_faults.

(** The integers and strings of the model meet the premises. *)
Theorem C45_premises : (forall lo hi, takes_prefix (conv_int lo hi) /\ rejects_brace (conv_int lo hi)) /\
  takes_prefix conv_string /\ takes_word conv_string.
Proof.
  split; [|apply TextTop.conv_string_word]. intros lo hi. split; [apply TextTop.conv_int_prefix|]. intros w. reflexivity.
Qed.
Print Assumptions C45_premises.

Definition parse_ints (str : String.string) (perm : list nat) : outcome (list nat * list (outcome Z)) :=
  a <- stringToArray (conv_int (-1000) 1000) true true BMalloc perm 0%Z (new_array Z BMalloc perm) (list_ascii_of_string str) ;;
  Ok (a_dims a, map (fun i => at_ true perm a [Z.of_nat i]) (seq 0 2)).
(** Undefined behaviour on text that should be rejected: with one dimension, a brace inside. *)
Example C45_overrun_refuted : parse_ints "{1,{2}}" [0] = Fault FOob.
Proof. vm_compute; reflexivity. Qed.
(** A trailing comma is accepted if the last word holds two integers. *)
Example C45_trailing_comma_refuted : parse_ints "{1-5,}" [0] = Ok ([2], [Ok 1%Z; Ok (-5)%Z]).
Proof. vm_compute; reflexivity. Qed.
Example C45_case :
  parse_ints " { 1 ,-2} " [0] = Ok ([2], [Ok 1%Z; Ok (-2)%Z]) /\ parse_ints "{1,2" [0] = Abort /\ parse_ints "{1 2}" [0] = Abort /\
  parse_ints "{{1,2},{3}}" [0;1] = Abort /\ parse_ints "{{1,2}}" [0] = Abort /\ parse_ints "{1,,2}" [0] = Abort /\ parse_ints "{1,x}" [0] = Abort /\
  parse_ints "{1,2}3" [0] = Abort /\ parse_ints "{1,5000}" [0] = Abort.
Proof. repeat split; vm_compute; reflexivity. Qed.
