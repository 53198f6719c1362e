(** C64: arrays of arrays can be moved between memory spaces. *)
From Coq Require Import List Arith Lia Bool.
From Verif Require Import Base BaseProofs Chai ChaiSpec ChaiProofs Nested NestedSpec NestedProofs.
Import ListNotations.

(** Every program that follows the protocol of [nspec_run] runs without an error on the blocks, records
    and handles of both levels, and reads what the same program reads from a list of lists. *)
Theorem C64_values V (prog : list (nop V)) st ys :
  nspec_run prog (nspec_start V) = Some (st, ys) ->
  exists w, n_run prog (n_start V) = Ok (w, ys) /\ nflat_run prog [] = Some ys.
Proof.
  intros E. destruct (nrun_refines (Inv_start V) E) as (w & Ew & _). exists w. split; [exact Ew|]. exact (nrun_flat E).
Qed.
Print Assumptions C64_values.

(** A program with no handle but the array itself may move it from any state: nothing has to be touched,
    and the handle is fit for the next move. *)
Definition fit V (st : nspec V) : Prop :=
  match v_hs st with
  | [o] => o_gen o = v_gen st /\ o_size o = length (v_in st) /\ (v_cap st = 0 \/ o_space o = Some (v_cur st)) /\ v_cur st < 2
  | _ => False
  end.
Definition own V (o : nop V) : Prop := match o with NCopy _ _ => False | _ => True end.
Theorem C64_single_handle V (st : nspec V) :
  fit V st ->
  (forall s touch, s < 2 -> exists st', nspec_move st 0 (Some s) touch = Some st' /\ (v_cap st <> 0 -> v_cur st' = s)) /\
  (forall o st' x, own V o -> nspec_step o st = Some (st', x) -> fit V st').
Proof.
  unfold fit. destruct st as [ins cap cur d g hs]. cbn [v_hs v_in v_cap v_cur v_gen]. destruct hs as [|o [|o2 hs]]; try contradiction. intros (G & Z & S & L).
  assert (M : forall n s touch st', nspec_move (mkNS ins cap cur d g [o]) n s touch = Some st' ->
    match v_hs st' with
    | [o'] => o_gen o' = v_gen st' /\ o_size o' = length (v_in st') /\ (v_cap st' = 0 \/ o_space o' = Some (v_cur st')) /\ v_cur st' < 2
    | _ => False
    end).
  { intros n s touch st' E. unfold nspec_move in E. cbn [v_hs v_in v_cap v_cur v_gen v_dirty] in E. destruct n as [|n]; [|destruct n; discriminate]. cbn [nth_error] in E.
    destruct s as [s|]; [|injection E as <-; cbn; auto]. rewrite G, Nat.eqb_refl in E. cbn [negb] in E. destruct (cap =? 0) eqn:C0; [injection E as <-; cbn; auto|].
    destruct (s =? cur) eqn:Es; [injection E as <-; cbn; apply Nat.eqb_eq in Es; subst; auto|].
    destruct (_ && _)%bool eqn:Eb; [|discriminate]. injection E as <-. apply andb_prop in Eb. destruct Eb as [Eb _]. apply andb_prop in Eb. destruct Eb as [Eb _]. apply Nat.ltb_lt in Eb.
    cbn. rewrite map_length. auto. }
  split.
  - intros s touch Ls. unfold nspec_move. cbn [v_hs v_in v_cap v_cur v_gen v_dirty nth_error]. rewrite G, Nat.eqb_refl. cbn [negb].
    destruct (cap =? 0) eqn:C0; [eexists; split; [reflexivity|]; apply Nat.eqb_eq in C0; cbn; lia|]. apply Nat.eqb_neq in C0.
    destruct (s =? cur) eqn:Es; [eexists; split; [reflexivity|]; apply Nat.eqb_eq in Es; cbn; auto|].
    apply Nat.eqb_neq in Es. destruct S as [S|S]; [congruence|]. rewrite Z, S, Nat.eqb_refl.
    assert (B : ((s <? 2) && true && ((cur =? 1) || eqo (Some cur) 0))%bool = true).
    { apply Nat.ltb_lt in Ls. rewrite Ls. destruct cur as [|[|]]; [reflexivity|reflexivity|lia]. }
    rewrite B. eexists. split; [reflexivity|]. reflexivity.
  - intros op st' x Ow E. destruct op as [n es|n s touch|n s|n|n i size c|n i j s v|n i j s]; cbn [nspec_step] in E; [contradiction| | | | | |].
    + destruct (nspec_move _ _ _ _) as [st1|] eqn:Em; [|discriminate]. injection E as <- <-. exact (M _ _ _ _ Em).
    + cbn [v_hs v_in v_cap v_cur v_gen v_dirty] in E. destruct (nth_error [o] n); [|discriminate]. destruct (_ && _)%bool; [|discriminate]. injection E as <- <-. cbn. auto.
    + cbn [v_hs v_in v_cap v_cur v_gen v_dirty] in E. destruct n as [|n]; [|destruct n; discriminate]. cbn [nth_error] in E. destruct (negb _); [discriminate|].
      destruct (cap <? length ins + 1); [|destruct (_ && _)%bool; [|discriminate]]; injection E as <- <-; cbn; rewrite app_length; cbn; repeat split; auto; lia.
    + destruct (usable _ _ _); [|discriminate]. cbn [v_hs v_in v_cap v_cur v_gen v_dirty] in E. destruct (nth_error ins i) as [y|] eqn:Hy; [|discriminate]. destruct (_ && _)%bool; [|discriminate]. injection E as <- <-.
      cbn. rewrite put_upd by exact (nth_lt Hy). rewrite upd_length. auto.
    + destruct (usable _ _ _); [|discriminate]. cbn [v_hs v_in v_cap v_cur v_gen v_dirty] in E. destruct (nth_error ins i) as [y|] eqn:Hy; [|discriminate]. destruct (_ && _)%bool; [|discriminate]. injection E as <- <-.
      cbn. rewrite put_upd by exact (nth_lt Hy). rewrite upd_length. auto.
    + destruct (usable _ _ _); [|discriminate]. cbn [v_hs v_in v_cap v_cur v_gen v_dirty] in E. destruct (nth_error ins i) as [y|]; [|discriminate]. destruct (nth_error _ j) as [[v|]|]; try discriminate. injection E as <- <-. cbn. auto.
Qed.
Print Assumptions C64_single_handle.

Definition result {A B} (m : outcome (A * B)) : outcome B := match m with Ok (_, y) => Ok y | Abort => Abort | Fault f => Fault f end.
(** { 7, 8 }, { 9 } on the host *)
Definition two : list (nop nat) :=
  [ NPush 0; NInner 0 0 0 2; NWrite 0 0 0 0 7; NWrite 0 0 1 0 8; NPush 0; NInner 0 1 0 1; NWrite 0 1 0 0 9 ].
(** Moves both ways, a write on the device, growth of an inner and of the outer array, a captured copy. *)
Definition trip : list (nop nat) := two ++
  [ NMove 0 (Some 1) true; NRead 0 0 1 1; NWrite 0 1 0 1 10; NMove 0 (Some 0) true; NRead 0 1 0 0;
    NInner 0 1 1 3; NWrite 0 1 2 0 5; NPush 0; NPush 0; NPush 0; NInner 0 4 0 1; NWrite 0 4 0 0 6;
    NCopy 0 (Some 1); NRead 1 1 2 1; NRead 1 4 0 1; NMove 0 (Some 0) false; NRead 0 4 0 0; NMove 0 (Some 1) false; NRead 0 0 0 1 ].
Example C64_case :
  option_map snd (nspec_run trip (nspec_start nat)) = Some [8; 10; 5; 6; 6; 7] /\
  result (n_run trip (n_start nat)) = Ok [8; 10; 5; 6; 6; 7] /\ nflat_run trip [] = Some [8; 10; 5; 6; 6; 7].
Proof. vm_compute. auto. Qed.
Example C64_single_handle_case : fit nat (nspec_start nat) /\
  match nspec_run two (nspec_start nat) with Some (st, _) => fit nat st /\ v_cap st <> 0 | None => False end.
Proof. vm_compute. intuition; discriminate. Qed.

(** A move to the space where the array is touches the outer buffer only: what is written afterwards is
    lost. With a single level (C40) the same program is correct. *)
Definition again : list (nop nat) := two ++
  [ NMove 0 (Some 1) false; NMove 0 (Some 1) true; NWrite 0 1 0 1 10; NMove 0 (Some 0) false; NRead 0 1 0 0 ].
Theorem C64_same_space_refuted :
  nflat_run again [] = Some [10] /\ result (n_run again (n_start nat)) = Ok [9] /\ nspec_run again (nspec_start nat) = None.
Proof. vm_compute. auto. Qed.
Definition again_single : list (cop nat) :=
  [ CNew; CRealloc 0 0 0 1; CWrite 0 0 0 9; CMove 0 (Some 1) false; CMove 0 (Some 1) true; CWrite 0 0 1 10; CMove 0 (Some 0) false; CRead 0 0 0 ].
Example C64_same_space_single : option_map snd (spec_run 2 again_single (spec_empty nat)) = Some [10].
Proof. vm_compute. reflexivity. Qed.

(** Two handles: the view was moved to the device, the array back to the host. Moving the view again, host
    code follows the view's device pointer to the inner arrays. *)
Definition view : list (nop nat) := two ++ [ NCopy 0 None; NMove 1 (Some 1) true; NMove 0 (Some 0) true; NMove 1 (Some 1) true ].
Theorem C64_other_handle_refuted :
  result (n_run view (n_start nat)) = Fault FDangling /\ nspec_run view (nspec_start nat) = None /\ nflat_run view [] = Some [].
Proof. vm_compute. auto. Qed.

(** An inner array that grows on the host while the outer array is not touched there: the device keeps the
    old handle. *)
Definition grown : list (nop nat) := two ++
  [ NMove 0 (Some 1) false; NMove 0 (Some 0) false; NInner 0 1 1 2; NMove 0 (Some 1) false; NRead 0 1 0 1 ].
Theorem C64_untouched_refuted :
  result (n_run grown (n_start nat)) = Fault FDangling /\ nspec_run grown (nspec_start nat) = None /\ nflat_run grown [] = Some [9].
Proof. vm_compute. auto. Qed.
