(** Properties C37, C38 and C39 for ArrayOfArrays, ArrayOfSets, SparsityPattern and CRSMatrix. *)
From Coq Require Import List Arith ZArith Lia Bool Permutation.
From Verif Require Import Base Mem BufferManip AoA AoASpec SortedSpec AoS AoSSpec Sparsity SparsitySpec CRS CRSSpec Values ValuesSpec AoACopy AoAValuesSpec.
From Verif Require AoALayout AoAProofs AoAProofs2 AoAProofs4 SetsProofs2 SparsityProofs CRSProofs2 CRSProofs4 AoACopyProofs AoAValues ValuesProofs2
  PropAoA PropAoS PropSparsity PropCRS.
Import ListNotations.
Set Implicit Arguments.
Unset Strict Implicit.

Notation start := (mkState [] []).
Notation arrays_class chk tv dflt := (aoa_class chk tv true false tt (arrays_step chk tv dflt)).
Notation sets_class chk lt eqb dflt := (aoa_class chk true true false tt (sets_step chk lt eqb dflt)).
Notation pattern_class chk cmax := (aoa_class chk true true false 0 (pattern_step chk cmax)).
Notation matrix_class chk cmax add zero := (aoa_class chk true true true 0 (matrix_step chk cmax add zero)).
Notation empty_target := (fun x y => no_rows (fst x) (fst y)).
Notation always := (fun _ => true).
Notation arrays_program tv dflt p := (nullable_program ([], []) (rows_step tv dflt) (@rows_revive _) (rows_room tv) (rows_intact tv) p).
Notation sets_program lt p := (nullable_program [] (AoSSpec.set_step lt) (@sets_revive _) no_rows always p).
Notation pattern_program cmax p := (nullable_program ([], 0) (pat_step cmax) (pat_revive cmax) empty_target always p).
Notation matrix_program cmax add zero p :=
  (nullable_program ([], 0) (mat_step add zero cmax) (mat_revive (mat_step add zero cmax)) empty_target always p).

(** A moved object: no arrays, null pointers. *)
Definition is_moved {V W E} (e0 : E) (v : nat * E * (buf nat * buf nat * buf V * buf W)) : Prop := v = (0, e0, ([], [], [], [])).

(** C37 and C39 for ArrayOfArrays: any program over any number of objects which is meaningful on plain values (see
    AoAValuesSpec) ends normally, each variable has the contents and capacities it has there, no two variables share storage
    and no storage is lost, move assignments included. *)
Theorem C37_arrays_programs : forall V (dflt : V) chk tv p e,
  arrays_program tv dflt p = Some e ->
  exists st, executes (arrays_class chk tv dflt) p start = Ok st /\
    (forall x M K, value e x = Some (Some (M, K)) -> exists v, content (arrays_class chk tv dflt) st x = Ok v /\
       PropAoA.displays chk (fst (apack v)) M /\ (forall i k, nth_error K i = Some k -> capacityOfArray chk (fst (apack v)) i = Ok k)) /\
    (forall x, value e x = Some None -> exists v, content (arrays_class chk tv dflt) st x = Ok v /\ is_moved tt v) /\
    (forall x, value e x = None -> var (vars st) x = Fault FDangling) /\
    NoDup (owned st) /\ Permutation (live st) (owned st).
Proof.
  intros V dflt chk tv p e H. destruct (AoAValues.arrays_program chk H) as (st & E & (A & B & C & _)). exists st. split; [exact E|]. split; [|split; [|split; [exact B|split; [exact C|]]]].
  - intros x M K Hx. destruct (A x _ Hx) as (v & Ev & (L & Aok & D1 & D2)). exists v. split; [exact Ev|].
    assert (R : AoAProofs4.arep tv true (fun _ : V => tt) (fst (apack v)) M K) by (exists L; auto). split; [exact (PropAoA.rep_displays chk R)|]. intros i k. exact (AoAProofs4.rep_cap chk R).
  - intros x Hx. destruct (A x _ Hx) as (v & Ev & Rv). exists v. split; [exact Ev|exact Rv].
  - eapply AoAValues.class_no_leak. exact E.
Qed.
Print Assumptions C37_arrays_programs.
Definition sample : list (stmt (acall nat)) :=
  [New; Call 0 (AAppendFrom [1; 2]); Call 0 (AAppendFrom [3]); CopyNew 0; Call 0 (ASet 0 0 9); New; Move 2 0; Call 0 (AResize 1 0); Copy 1 0; Copy 1 1;
   New; Copy 3 2; Move 3 2; Destroy 0].
Example C37_arrays_case :
  arrays_program true 0 sample =
    Some ([None; Some (Some ([[]], [0])); Some None; Some (Some ([[9; 2]; [3]], [4; 2]))], []) /\
  (st <- executes (arrays_class true true 0) sample start ;; v <- content (arrays_class true true 0) st 3 ;;
   aoa_at true (fst (apack v)) 0 0) = Ok 9 /\
  (st <- executes (arrays_class true true 0) sample start ;; Ok (live st, owned st)) = Ok ([0; 1], [1; 0]) /\
  (* copying a moved object reads m_offsets through a null pointer *)
  executes (arrays_class true true 0) (sample ++ [Copy 1 2]) start = Fault FOob.
Proof. repeat split; vm_compute; reflexivity. Qed.

(** The others, for trivially copyable T and with copies into targets without rows. *)
Theorem C37_sets_of_programs : forall V (lt eqb : V -> V -> bool) (dflt : V) chk p e, total_order lt eqb ->
  nullable_admitted [] (AoSSpec.set_step lt) (@sets_revive V) no_rows always (fun c _ => tallowed lt c) p ->
  sets_program lt p = Some e ->
  exists st, executes (sets_class chk lt eqb dflt) p start = Ok st /\
    (forall x M, value e x = Some (Some M) -> exists v, content (sets_class chk lt eqb dflt) st x = Ok v /\ PropAoS.shows chk lt eqb (fst (apack v)) M) /\
    (forall x, value e x = Some None -> exists v, content (sets_class chk lt eqb dflt) st x = Ok v /\ is_moved tt v) /\
    (forall x, value e x = None -> var (vars st) x = Fault FDangling) /\
    NoDup (owned st) /\ Permutation (live st) (owned st).
Proof.
  intros V lt eqb dflt chk p e T Al H. destruct (AoAValues.sets_program chk dflt T Al H) as (st & E & (A & B & C & _)). exists st. split; [exact E|]. split; [|split; [|split; [exact B|split; [exact C|]]]].
  - intros x M Hx. destruct (A x _ Hx) as (v & Ev & (L & Aok & D)). exists v. split; [exact Ev|]. eapply (PropAoS.rep_shows T chk (tv := true)). exists L. split; [exact Aok|exact D].
  - intros x Hx. destruct (A x _ Hx) as (v & Ev & Rv). exists v. split; [exact Ev|exact Rv].
  - eapply AoAValues.class_no_leak. exact E.
Qed.
Print Assumptions C37_sets_of_programs.
Example C37_sets_of_case :
  let p := [New; Call 0 (TAppendSet 2); Call 0 (TInsert 0 7); CopyNew 0; Call 0 (TInsert 0 3); Copy 1 1] in
  nullable_admitted [] (AoSSpec.set_step Nat.ltb) (@sets_revive nat) no_rows always (fun c _ => tallowed Nat.ltb c) p /\
  sets_program Nat.ltb p <> None /\
  (st <- executes (sets_class true Nat.ltb Nat.eqb 0) p start ;; v <- content (sets_class true Nat.ltb Nat.eqb 0) st 1 ;;
   w <- content (sets_class true Nat.ltb Nat.eqb 0) st 0 ;;
   x <- aoa_at true (fst (apack v)) 0 0 ;; y <- aoa_at true (fst (apack w)) 0 0 ;; Ok (x, y)) = Ok (7, 3).
Proof. split; [|split; [discriminate|vm_compute; reflexivity]]. cbn. repeat split. Qed.

Theorem C37_pattern_programs : forall chk cmax p e,
  nullable_admitted ([], 0) (pat_step cmax) (pat_revive cmax) empty_target always
    (fun c x => match x with Some st => pallowed c st | None => True end) p ->
  pattern_program cmax p = Some e ->
  exists st, executes (pattern_class chk cmax) p start = Ok st /\
    (forall x s, value e x = Some (Some s) -> exists v, content (pattern_class chk cmax) st x = Ok v /\
       PropSparsity.pshows chk (mkSP (fst (apack v)) (snd (apack v))) s) /\
    (forall x, value e x = Some None -> exists v, content (pattern_class chk cmax) st x = Ok v /\ is_moved 0 v) /\
    (forall x, value e x = None -> var (vars st) x = Fault FDangling) /\
    NoDup (owned st) /\ Permutation (live st) (owned st).
Proof.
  intros chk cmax p e Al H. destruct (AoAValues.pattern_program chk Al H) as (st & E & (A & B & C & _)). exists st. split; [exact E|]. split; [|split; [|split; [exact B|split; [exact C|]]]].
  - intros x s Hx. destruct (A x _ Hx) as (v & Ev & (L & Aok & D & Dn & G)). exists v. split; [exact Ev|]. apply PropSparsity.prep_shows. split; [exists L; split; [exact Aok|exact D]|]. split; [exact Dn|exact G].
  - intros x Hx. destruct (A x _ Hx) as (v & Ev & Rv). exists v. split; [exact Ev|exact Rv].
  - eapply AoAValues.class_no_leak. exact E.
Qed.
Print Assumptions C37_pattern_programs.
Example C37_pattern_case :
  let p := [New; Call 0 (PResize 2 5 1); Call 0 (PInsert 1 4%Z); MoveNew 0; New; Copy 2 1; Call 1 (PInsert 1 0%Z); Move 0 1] in
  nullable_admitted ([], 0) (pat_step 9) (pat_revive 9) empty_target always
    (fun c x => match x with Some st => pallowed c st | None => True end) p /\
  pattern_program 9 p <> None /\
  (st <- executes (pattern_class true 9) p start ;; v <- content (pattern_class true 9) st 0 ;; w <- content (pattern_class true 9) st 2 ;;
   x <- numNonZeros true (mkSP (fst (apack v)) (snd (apack v))) 1 ;; y <- numNonZeros true (mkSP (fst (apack w)) (snd (apack w))) 1 ;;
   u <- content (pattern_class true 9) st 1 ;; Ok (x, y, snd (apack w), u)) = Ok (2, 1, 5, (0, 0, ([], [], [], []))).
Proof.
  split; [|split; [discriminate|vm_compute; reflexivity]]. unfold nullable_admitted. cbn. unfold fulfils, value, in_range. cbn.
  repeat split; try (intros v E; injection E as <-; cbn; try lia; contradiction).
Qed.

Theorem C37_matrix_programs : forall W (add : W -> W -> W) zero chk cmax p e,
  nullable_admitted ([], 0) (mat_step add zero cmax) (mat_revive (mat_step add zero cmax)) empty_target always
    (fun c x => match x with Some st => callowed true c st | None => True end) p ->
  matrix_program cmax add zero p = Some e ->
  exists st, executes (matrix_class chk cmax add zero) p start = Ok st /\
    (forall x s, value e x = Some (Some s) -> exists v, content (matrix_class chk cmax add zero) st x = Ok v /\
       PropCRS.cshows chk (mkSP (fst (apack v)) (snd (apack v))) s) /\
    (forall x, value e x = Some None -> exists v, content (matrix_class chk cmax add zero) st x = Ok v /\ is_moved 0 v) /\
    (forall x, value e x = None -> var (vars st) x = Fault FDangling) /\
    NoDup (owned st) /\ Permutation (live st) (owned st).
Proof.
  intros W add zero chk cmax p e Al H. destruct (AoAValues.matrix_program chk Al H) as (st & E & (A & B & C & _)). exists st. split; [exact E|]. split; [|split; [|split; [exact B|split; [exact C|]]]].
  - intros x s Hx. destruct (A x _ Hx) as (v & Ev & (L & Aok & D & Dn & G)). exists v. split; [exact Ev|]. refine (@PropCRS.mrep_shows W chk true _ s _). split; [exists L; split; [exact Aok|exact D]|]. split; [exact Dn|exact G].
  - intros x Hx. destruct (A x _ Hx) as (v & Ev & Rv). exists v. split; [exact Ev|exact Rv].
  - eapply AoAValues.class_no_leak. exact E.
Qed.
Print Assumptions C37_matrix_programs.
Example C37_matrix_case :
  let p := [New; Call 0 (CResize 1 5 1); Call 0 (CInsert 0 4%Z 8); CopyNew 0; Call 0 (CSetValues 3); MoveNew 0] in
  nullable_admitted ([], 0) (mat_step Nat.add 0 9) (mat_revive (mat_step Nat.add 0 9)) empty_target always
    (fun c x => match x with Some st => callowed true c st | None => True end) p /\
  matrix_program 9 Nat.add 0 p <> None /\
  (st <- executes (matrix_class true 9 Nat.add 0) p start ;; v <- content (matrix_class true 9 Nat.add 0) st 1 ;; w <- content (matrix_class true 9 Nat.add 0) st 2 ;;
   x <- entry true (mkSP (fst (apack v)) (snd (apack v))) 0 0 ;; y <- entry true (mkSP (fst (apack w)) (snd (apack w))) 0 0 ;; Ok (x, y)) = Ok (8, 3).
Proof.
  split; [|split; [discriminate|vm_compute; reflexivity]]. unfold nullable_admitted. cbn. unfold fulfils, value, in_range. cbn.
  repeat split; try (intros v E; injection E as <-; cbn; try lia; contradiction).
Qed.

(** C38: the exact outcome of a copy assignment a = b after any two histories. K0 and K are the capacities of the arrays of a and
    b. The copy is right exactly if [enough]; otherwise the code calls the error handler, or moves values that are not there, or
    accesses memory behind the value buffer. *)
Theorem C38_exact : forall V (dflt : V) chk tv n0 cap0 h0 n cap h M0 M a b,
  vec_run dflt h0 (repeat [] n0) = Some M0 -> PropAoA.driven chk tv dflt n0 cap0 h0 = Ok a ->
  vec_run dflt h (repeat [] n) = Some M -> PropAoA.driven chk tv dflt n cap h = Ok b ->
  let K0 := cap_run dflt h0 (repeat [] n0) (repeat cap0 n0) in
  let K := cap_run dflt h (repeat [] n) (repeat cap n) in
  if enough tv (valueCapacity a) K0 K then
    exists c, setEqualTo chk tv true false a b = Ok c /\ PropAoA.displays chk c M /\
      (forall i k, nth_error K i = Some k -> capacityOfArray chk c i = Ok k) /\ aoa_dtor chk tv true false BMalloc c = Ok tt
  else
    setEqualTo chk tv true false a b =
      if (chk && (valueCapacity a <? believed K0 K))%bool then Abort
      else if ((0 <? valueCapacity a) && negb tv)%bool then Fault FMove else Fault FOob.
Proof.
  intros V dflt chk tv n0 cap0 h0 n cap h M0 M a b H0 E0 H E K0 K.
  pose proof (PropAoA.driven_rep chk tv dflt n0 cap0 h0) as D0. rewrite H0 in D0. destruct D0 as [(a' & E0' & (L0 & A0 & _ & W0))|[_ D0]]; [|congruence]. rewrite E0 in E0'. injection E0' as <-.
  pose proof (PropAoA.driven_rep chk tv dflt n cap h) as D. rewrite H in D. destruct D as [(b' & E' & (L & A & F & W))|[_ D]]; [|congruence]. rewrite E in E'. injection E' as <-.
  pose proof (AoACopyProofs.setEqualTo_ok chk (AoAProofs.aok_pok A0) A) as S. cbn [negb orb] in S. unfold enough. fold K0 in W0. fold K in W. rewrite <- W0, <- W.
  rewrite <- AoAValues.stale_believed, <- AoAValues.total_wid. unfold AoACopyProofs.roomy in S. unfold valueCapacity, BufferManip.capacity.
  destruct ((AoALayout.total L <=? length (vals a)) || (AoACopyProofs.stale L0 L =? 0) || tv && (AoACopyProofs.stale L0 L <=? length (vals a)))%bool; [|exact S].
  destruct S as (c & Ec & Ac). exists c. split; [exact Ec|]. assert (R : AoAProofs4.arep tv true (fun _ : V => tt) c M K) by (exists L; auto).
  split; [exact (PropAoA.rep_displays chk R)|]. split; [rewrite W; intros i k; exact (AoAProofs4.rep_cap chk R)|exact (AoAProofs4.dtor_ok chk R)].
Qed.
Print Assumptions C38_exact.
(** Pairs of valid objects for which it goes wrong. *)
Example C38_case :
  let assign chk tv h0 h := a <- PropAoA.driven chk tv 0 0 0 h0 ;; b <- PropAoA.driven chk tv 0 0 0 h ;;
    c <- setEqualTo chk tv true false a b ;; x <- aoa_at chk c 0 0 ;; Ok x in
  (* one short array, assigned from one long array: stale offsets exceed the capacity *)
  assign true true [AAppend 1] [AAppend 3] = Abort /\
  assign false true [AAppend 1] [AAppend 3] = Fault FOob /\
  (* a type with constructors: values behind the first array of the source are moved although they do not exist *)
  assign true false [AAppend 1; AAppend 2] [AAppend 1; AAppend 1; AAppend 9] = Fault FMove /\
  (* harmless *)
  assign true true [AAppend 3] [AAppendFrom [7]] = Ok 7.
Proof. repeat split; vm_compute; reflexivity. Qed.

(** Assignment from itself destroys its own values and then reads them: fine for trivially copyable T, or if there
    are no values at all. *)
Theorem C38_self : forall V (dflt : V) chk tv n0 cap0 h M a,
  vec_run dflt h (repeat [] n0) = Some M -> PropAoA.driven chk tv dflt n0 cap0 h = Ok a ->
  if (tv || forallb (fun r => length r =? 0) M)%bool then
    exists c, setEqualToSelf chk tv true false a = Ok c /\ PropAoA.displays chk c M
  else setEqualToSelf chk tv true false a = Fault FRead.
Proof.
  intros V dflt chk tv n0 cap0 h M a H E. pose proof (PropAoA.driven_rep chk tv dflt n0 cap0 h) as D. rewrite H in D. destruct D as [(b' & E' & (L & A & F & W))|[_ D]]; [|congruence]. rewrite E in E'. injection E' as <-.
  pose proof (AoACopyProofs.setEqualToSelf_ok chk A) as S. unfold AoAProofs.allt in S. cbn [negb orb] in S. rewrite andb_true_r in S.
  replace (forallb (fun r => length r =? 0) M) with (AoACopyProofs.empty_rows L) by (rewrite <- F; unfold AoACopyProofs.empty_rows; clear; induction L as [|r L IH]; cbn [forallb map]; [reflexivity|rewrite IH; reflexivity]).
  destruct (tv || AoACopyProofs.empty_rows L)%bool; [|exact S]. destruct S as (c & Ec & Ac). exists c. split; [exact Ec|]. eapply PropAoA.rep_displays. exists L. split; [exact Ac|]. split; [exact F|reflexivity].
Qed.
Print Assumptions C38_self.
Example C38_self_case :
  (a <- PropAoA.driven true false 0 0 0 [AAppend 1] ;; setEqualToSelf true false true false a) = Fault FRead /\
  (a <- PropAoA.driven true true 0 0 0 [AAppendFrom [5; 6]] ;; c <- setEqualToSelf true true true false a ;; aoa_at true c 0 1) = Ok 6.
Proof. split; vm_compute; reflexivity. Qed.

(** The same for matrices, whose entries have a second buffer: both have to be large enough. *)
Theorem C38_matrix : forall W (add : W -> W -> W) zero chk tw cmax nr0 nc0 cap0 h0 nr nc cap h st0 st p q,
  (Z.of_nat nc0 - 1 <= cmax)%Z -> (Z.of_nat nc - 1 <= cmax)%Z ->
  cvalid add zero tw cmax h0 (repeat none nr0, nc0) -> cvalid add zero tw cmax h (repeat none nr, nc) ->
  mat_run add zero cmax h0 (repeat none nr0, nc0) = Some st0 -> PropCRS.cdriven add zero chk tw cmax nr0 nc0 cap0 h0 = Ok p ->
  mat_run add zero cmax h (repeat none nr, nc) = Some st -> PropCRS.cdriven add zero chk tw cmax nr nc cap h = Ok q ->
  exists K0 K,
    (length K0 = numArrays (rows p) /\ forall i k, nth_error K0 i = Some k -> nonZeroCapacity chk p i = Ok k) /\
    (length K = numArrays (rows q) /\ forall i k, nth_error K i = Some k -> nonZeroCapacity chk q i = Ok k) /\
    let bad t n := if (chk && (n <? believed K0 K))%bool then Abort else if ((0 <? n) && negb t)%bool then Fault FMove else Fault FOob in
    if enough true (length (vals (rows p))) K0 K then
      if enough tw (length (ents (rows p))) K0 K then
        exists c, setEqualTo chk true tw true (rows p) (rows q) = Ok c /\ PropCRS.cshows chk (mkSP c (ncols q)) st /\
          crs_dtor chk tw BMalloc (mkSP c (ncols q)) = Ok tt
      else setEqualTo chk true tw true (rows p) (rows q) = bad tw (length (ents (rows p)))
    else setEqualTo chk true tw true (rows p) (rows q) = bad true (length (vals (rows p))).
Proof.
  intros W add zero chk tw cmax nr0 nc0 cap0 h0 nr nc cap h st0 st p q C0 C V0 V H0 E0 H E.
  pose proof (@PropCRS.cdriven_rep W add zero chk tw cmax nr0 nc0 cap0 h0 C0 V0) as D0. rewrite H0 in D0. destruct D0 as [(p' & E0' & ((L0 & A0 & F0) & _))|[_ D0]]; [|congruence]. rewrite E0 in E0'. injection E0' as <-.
  pose proof (@PropCRS.cdriven_rep W add zero chk tw cmax nr nc cap h C V) as D. rewrite H in D. destruct D as [(q' & E' & ((L & A & F) & N & G))|[_ D]]; [|congruence]. rewrite E in E'. injection E' as <-.
  assert (Caps : forall (a : aoa Z W) (L : list (list (Z * W) * nat)), AoAProofs.aok fst snd true tw true a L ->
    length (map (@AoALayout.wid _) L) = numArrays a /\ forall i k, nth_error (map (@AoALayout.wid _) L) i = Some k -> capacityOfArray chk a i = Ok k).
  { intros a L1 [I _]. split; [rewrite map_length; symmetry; apply I|]. intros i k Hk. rewrite nth_error_map in Hk. destruct (nth_error L1 i) as [x|] eqn:Ex; [|discriminate]. injection Hk as <-. exact (AoAProofs.capacityOf_at chk I Ex). }
  exists (map (@AoALayout.wid _) L0), (map (@AoALayout.wid _) L). split; [apply Caps; exact A0|]. split; [apply Caps; exact A|].
  unfold enough. rewrite <- AoAValues.stale_believed, <- AoAValues.total_wid.
  pose proof (AoACopyProofs.setEqualTo_ok chk (AoAProofs.aok_pok A0) A) as S. unfold AoACopyProofs.roomy in S. cbn [negb orb] in S.
  cbv zeta. destruct ((AoALayout.total L <=? length (vals (rows p))) || _ || _)%bool; [|exact S].
  destruct ((AoALayout.total L <=? length (ents (rows p))) || _ || _)%bool; [|exact S].
  destruct S as (c & Ec & Ac). exists c. split; [exact Ec|].
  assert (R : CRSProofs2.mrep (W := W) tw (mkSP c (ncols q)) st) by (split; [exists L; split; [exact Ac|exact F]|]; split; [exact N|exact G]).
  split; [exact (PropCRS.mrep_shows chk R)|exact (CRSProofs4.mdtor chk R)].
Qed.
Print Assumptions C38_matrix.
Example C38_matrix_case :
  let assign chk h0 h := p <- PropCRS.cdriven Nat.add 0 chk true 9 1 4 1 h0 ;; q <- PropCRS.cdriven Nat.add 0 chk true 9 1 4 1 h ;;
    c <- setEqualTo chk true true true (rows p) (rows q) ;; entry chk (mkSP c (ncols q)) 0 0 in
  assign true [] [CInsert 0 1%Z 8; CInsert 0 2%Z 9] = Abort /\
  assign true [CReserveNonZeros 5] [CInsert 0 1%Z 8; CInsert 0 2%Z 9] = Ok 8.
Proof. split; vm_compute; reflexivity. Qed.
