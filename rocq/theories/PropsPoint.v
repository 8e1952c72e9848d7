(** * Properties of the conversions between point shares and coordinate shares (C36, C41) *)
From Coq Require Import String List Arith NArith ZArith Lia Bool.
From Verif Require Import Proc Alg Zp Rep3Net Rep3 Rep3Spec Rep3Proofs Rep3Wp Uint Conv ConvWp CmpWp Exec Secrecy
  Point PointWp PointBack PointSecrecy Concrete ConcreteU ConcreteC.
Import ListNotations.
Local Open Scope grp_scope.

(** [half x] is the point known to party 1 ([a] + [b] of its share), [rest x] the third component.
    [generic x p]: [x] is a sharing of [p] with non-zero components, a non-zero [half x] and
    [half x <> rest x]. [ok_or e Q]: all parties fail with [e] or all succeed with [Q]. *)
Section C41.
  Context {F : Type} `{FU : FieldUint F} {C : Type} {AC : AbGrp C} {CV : Curve F C}.
  Context {S M : Type} (W : nat) (du : nat -> S -> N * S) {DF : Draw S F} {DC : Draw S C}.
  Context {EN : Enc M (list N)} {ENN : Enc M (list (N * N))}
          {EL : Enc M (list (list N))} {ELL : Enc M (list (list N * list N))} {EF : Enc M (list F)}
          {ELF : Enc M (list (list F))}
          (cap : nat) (cap_pos : (1 <= cap)%nat) (width : (mbs F + 2 <= W)%nat).
  Context (drawv : nat -> S -> list F * S) (drawv_len : forall n s, length (fst (drawv n s)) = n).
  Context (st : pid -> rst S) (Hs : synced st).
  Notation conv := (a2b W du (S := S) (M := M) (F := F)).
  Notation ok := (@a2b_wp F _ _ S M W du _ _ cap cap_pos width).

  Theorem C41_point_to_coords x (p : C) : generic x p ->
    all_end cap (fun i => point_share_to_fieldshares W du conv i (st i) (x i)) (ok_or inv_err (coord_result p)).
  Proof. exact (fun Hg => wpo_all_end (p2f_point W du cap_pos conv ok Hs (proj1 Hg) (proj1 (proj2 Hg)) (proj1 (proj2 (proj2 Hg))) (proj2 (proj2 (proj2 Hg))))). Qed.
  Theorem C41_point_to_coords_many x (ps : list C) : pvec generic x ps ->
    all_end cap (fun i => point_share_to_fieldshares_many W du i (st i) (x i)) (ok_or inv_err (coord_results ps)).
  Proof. exact (fun Hg => wpo_all_end (p2f_many_points du cap_pos width Hs Hg)). Qed.
  Theorem C41_is_zero x (p : C) : generic x p ->
    all_ok cap (fun i => point_is_zero W du conv i (st i) (x i))
      (fun r => bit_shares (fun i => fst (r i)) (pzero p) /\ synced (fun i => snd (r i))).
  Proof. exact (fun Hg => wp_all_ok (is_zero_point du cap_pos width conv ok Hs (proj1 Hg) (proj1 (proj2 Hg)) (proj1 (proj2 (proj2 Hg))) (proj2 (proj2 (proj2 Hg))))). Qed.
  Theorem C41_is_zero_many x (ps : list C) : pvec generic x ps ->
    all_ok cap (fun i => point_is_zero_many W du i (st i) (x i))
      (fun r => pvec bit_shares (fun i => fst (r i)) (map pzero ps) /\ synced (fun i => snd (r i))).
  Proof. exact (fun Hg => wp_all_ok (is_zero_many_ok du cap_pos width Hs Hg)). Qed.
  (** [mask_point st]: the random point that party 2 adds before the sum is revealed *)
  Theorem C41_coords_to_point x y inf c (p : C) :
    shares x (fst (fst c)) -> shares y (snd (fst c)) -> shares inf (bitval (snd c)) -> coord_of p c ->
    mask_point (C := C) st <> 0 -> fst (coords (mask_point (C := C) st)) <> fst (fst c) ->
    all_end cap (fun i => fieldshares_to_pointshare W du conv i (st i) (x i) (y i) (inf i))
      (ok_or inv_err (fun r => shares (fun i => fst (r i)) p /\ synced (fun i => snd (r i)))).
  Proof. exact (fun Hx Hy Hi Hc Hm Hd => wpo_all_end (f2p_ok W du cap_pos conv ok Hs Hx Hy Hi Hc Hm Hd)). Qed.
  Theorem C41_coords_to_point_many x y inf cs (ps : list C) :
    shares_vec x (map (fun c => fst (fst c)) cs) -> shares_vec y (map (fun c => snd (fst c)) cs) ->
    shares_vec inf (map (fun c => bitval (snd c)) cs) -> Forall2 coord_of ps cs ->
    Forall2 (fun c m => m <> 0 /\ fst (coords m) <> fst (fst c)) cs (mask_points (C := C) (length cs) (bc1 (st P2)) (bc2 (st P2))) ->
    all_end cap (fun i => fieldshares_to_pointshare_many W du drawv i (st i) (x i) (y i) (inf i))
      (ok_or inv_err (fun r => shares_vec (fun i => fst (r i)) ps /\ synced (fun i => snd (r i)))).
  Proof. exact (fun Hx Hy Hi Hc Hm => wpo_all_end (f2p_many_ok du cap_pos width drawv drawv_len Hs Hx Hy Hi Hc Hm)). Qed.
End C41.

Section C41p.
  Context {F : Type} `{FU : FieldUint F} {C : Type} {AC : AbGrp C} {CV : Curve F C}.
  Context {S M : Type} {DF : Draw S F} {EF : Enc M (list F)}.
  (** A zero component panics ... *)
  Theorem C41_zero_share_panics i (s : rst S) (x : share C) : sa x = 0 \/ sb x = 0 ->
    pre (F := F) (M := M) i s x = Fail (Panic "This fails if one share is zero").
  Proof. exact (@pre_zero F _ C AC CV S M _ _ i s x). Qed.
  (** ... so a public point promoted to a share always does, at every party. *)
  Theorem C41_trivial_share_panics i (s : rst S) (p : C) :
    pre (F := F) (M := M) i s (promote i p) = Fail (Panic "This fails if one share is zero").
  Proof. apply C41_zero_share_panics. destruct i; cbn; auto. Qed.
End C41p.

(** ** C36: what the first message of the conversion shows *)
Section C36.
  Context {F : Type} `{FU : FieldUint F} {C : Type} {AC : AbGrp C} {CV : Curve F C}.
  Context {M : Type} {EF : Enc M (list F)} (cap : nat) (cap_pos : (1 <= cap)%nat).
  Theorem C36_point_message i (st : pid -> rst (tape F)) (x : pid -> share C) (cx cy : F) :
    (forall j, share_nonzero (x j) = true) ->
    exists! u : tape F, length u = 2%nat /\
      exists out, sees cap i (fun j => pre (M := M) j (joint i u st j) (x j)) (out, [enc [cx; cy]]).
  Proof. exact (@pre_message F _ C AC CV M EF cap cap_pos i st x cx cy). Qed.
  (** In a batch party 2 receives the coordinates of all partial sums shifted by one common pair. *)
  Theorem C36_batch_message (st : pid -> rst (tape F)) (x : pid -> list (share C)) n :
    (forall j, length (x j) = n) -> (forall j, forallb share_nonzero (x j) = true) ->
    exists rx ry out, sees cap P2 (fun j => pre_many (M := M) j (st j) (x j))
      (out, [enc (map (fun s => fst (coords (sa s + sb s)) + rx) (x P1) ++ map (fun s => snd (coords (sa s + sb s)) + ry) (x P1))]).
  Proof. exact (@pre_many_leak F _ C AC CV M EF cap cap_pos st x n). Qed.
End C36.

(** ** Concrete cases *)
Notation conv13 := (a2b 64 du13 (S := Z) (M := cmsg) (F := F13)).
Lemma w13 : (mbs F13 + 2 <= 64)%nat. Proof. vm_compute. lia. Qed.
Ltac ne := let E := fresh in intros E; apply (f_equal val) in E; vm_compute in E; discriminate E.
Lemma generic_sh19 v a b : zero19 (g19 a) = false -> zero19 (g19 b) = false -> zero19 (g19 (v - a - b)) = false ->
  zero19 (g19 a + g19 b) = false -> Z.eqb (val (g19 a + g19 b)) (val (g19 (v - a - b))) = false ->
  generic (sh19 v a b) (g19 v).
Proof.
  intros Ha Hb Hc Hh Hr.
  assert (Z : forall p, zero19 p = false -> p <> 0) by (intros p E E'; apply zero19_spec in E'; congruence).
  split; [apply sh19_shares|]. split; [intros []; cbn [sh19 sa]; auto|]. split; [exact (Z _ Hh)|].
  intros E. apply same19 in E. change (Z.eqb (val (g19 a + g19 b)) (val (g19 (v - a - b))) = true) in E. congruence.
Qed.
(** The sharing of the point (5, 6) with components 2P, 7P, -4P. *)
Example ex_C41_generic : generic (sh19 5 2 7) (g19 5).
Proof. apply generic_sh19; reflexivity. Qed.
(** ... and its conversion does not abort: the shares open to 5, 6 and the flag 0. *)
Definition opens3 (o : option (pid -> outcome ((share F13 * share F13 * share F13) * rst Z))) : option (list Z) :=
  match o with
  | Some o => match o P0, o P1, o P2 with
      | Done (a, _), Done (b, _), Done (c, _) =>
          Some (map (fun f => val (sa (f a) + sa (f b) + sa (f c))) [fun t => fst (fst t); fun t => snd (fst t); fun t => snd t])
      | _, _, _ => None
      end
  | None => None
  end.
Definition run_p2f (x : pid -> share G19) := exec 1 3000 (fun i => point_share_to_fieldshares 64 du13 conv13 i (st13 i) (x i)).
Example ex_C41_runs : opens3 (run_p2f (sh19 5 2 7)) = Some [5; 6; 0]%Z.
Proof. vm_compute. reflexivity. Qed.
(** The point at infinity. *)
Example ex_C41_infinity : generic (sh19 0 2 7) (g19 0) /\ exists x y, opens3 (run_p2f (sh19 0 2 7)) = Some [x; y; 1]%Z.
Proof. split; [apply generic_sh19; reflexivity|]. do 2 eexists. vm_compute. reflexivity. Qed.
(** A batch with both. *)
Definition batch : pid -> list (share G19) := fun i => [sh19 5 2 7 i; sh19 0 2 7 i; sh19 11 1 6 i].
Lemma batch_generic : pvec generic batch [g19 5; g19 0; g19 11].
Proof.
  refine (Rep3Proofs.pvec_cons _ _ _ (fun j => eq_refl) ex_C41_generic _).
  refine (Rep3Proofs.pvec_cons _ _ _ (fun j => eq_refl) (proj1 ex_C41_infinity) _).
  assert (G : generic (sh19 11 1 6) (g19 11)) by (apply generic_sh19; reflexivity).
  refine (Rep3Proofs.pvec_cons _ _ _ (fun j => eq_refl) G _). apply Rep3Proofs.pvec_nil. reflexivity.
Qed.
Definition all_done {A} (o : option (pid -> outcome A)) : bool :=
  match o with
  | Some o => match o P0, o P1, o P2 with Done _, Done _, Done _ => true | _, _, _ => false end
  | None => false
  end.
Example ex_C41_many_runs : all_done (exec 1 3000 (fun i => point_share_to_fieldshares_many (M := cmsg) 64 du13 i (st13 i) (batch i))) = true
  /\ all_done (exec 1 3000 (fun i => point_is_zero_many (M := cmsg) 64 du13 i (st13 i) (batch i))) = true.
Proof. split; vm_compute; reflexivity. Qed.
Example ex_C41_is_zero : all_ok 1 (fun i => point_is_zero_many (M := cmsg) 64 du13 i (st13 i) (batch i))
  (fun r => pvec bit_shares (fun i => fst (r i)) [false; true; false] /\ synced (fun i => snd (r i))).
Proof. exact (C41_is_zero_many 64 du13 1 (le_n 1) w13 st13 st13_synced batch [g19 5; g19 0; g19 11] batch_generic). Qed.
(** The mask of the way back is the point 2P = (2, 7) here; the conversion of (5, 6) succeeds, and
    so does that of the point at infinity, whose coordinates are arbitrary. *)
Definition run_f2p (x y inf : pid -> share F13) := exec 1 3000 (fun i => fieldshares_to_pointshare (C := G19) 64 du13 conv13 i (stc i) (x i) (y i) (inf i)).
Definition opens1 (o : option (pid -> outcome (share G19 * rst Z))) : option Z :=
  match o with
  | Some o => match o P0, o P1, o P2 with
      | Done (a, _), Done (b, _), Done (c, _) => Some (val (sa a + sa b + sa c))
      | _, _, _ => None
      end
  | None => None
  end.
Example ex_C41_mask : mask_point (C := G19) stc = g19 2 /\ map val (mask_points (C := G19) 3 (bc1 (stc P2)) (bc2 (stc P2))) = [2; 15; 7]%Z.
Proof. split; [apply Zmod_eq|]; vm_compute; reflexivity. Qed.
Example ex_C41_back : all_end 1 (fun i => fieldshares_to_pointshare (M := cmsg) 64 du13 conv13 i (stc i) (sh13 5 2 7 i) (sh13 6 2 7 i) (sh13 0 1 1 i))
  (ok_or inv_err (fun r => shares (fun i => fst (r i)) (g19 5) /\ synced (fun i => snd (r i)))).
Proof.
  refine (@C41_coords_to_point F13 _ _ G19 _ _ Z cmsg 64 du13 _ _ _ _ _ 1 (le_n 1) w13 stc stc_synced _ _ _ ((f13 5, f13 6), false) (g19 5)
    (sh13_shares 5 2 7) (sh13_shares 6 2 7) (sh13_shares 0 1 1) eq_refl _ _); rewrite (proj1 ex_C41_mask); ne.
Qed.
Example ex_C41_back_runs : opens1 (run_f2p (sh13 5 2 7) (sh13 6 2 7) (sh13 0 1 1)) = Some 5%Z /\ opens1 (run_f2p (sh13 7 2 7) (sh13 6 2 7) (sh13 1 1 1)) = Some 0%Z.
Proof. split; vm_compute; reflexivity. Qed.
(** The batch (5, 6), infinity, (6, 7). *)
Definition bx : pid -> list (share F13) := fun i => [sh13 5 2 7 i; sh13 3 2 7 i; sh13 6 2 7 i].
Definition by_ : pid -> list (share F13) := fun i => [sh13 6 2 7 i; sh13 3 2 7 i; sh13 7 2 7 i].
Definition binf : pid -> list (share F13) := fun i => [sh13 0 2 7 i; sh13 1 2 7 i; sh13 0 2 7 i].
Lemma vec3 a b c a1 a2 b1 b2 c1 c2 : shares_vec (fun i => [sh13 a a1 a2 i; sh13 b b1 b2 i; sh13 c c1 c2 i]) [f13 a; f13 b; f13 c].
Proof.
  refine (Rep3Proofs.pvec_cons _ _ _ (fun j => eq_refl) (sh13_shares a a1 a2) _).
  refine (Rep3Proofs.pvec_cons _ _ _ (fun j => eq_refl) (sh13_shares b b1 b2) _).
  refine (Rep3Proofs.pvec_cons _ _ _ (fun j => eq_refl) (sh13_shares c c1 c2) _). apply Rep3Proofs.pvec_nil. reflexivity.
Qed.
Definition back_prog i := fieldshares_to_pointshare_many (C := G19) (M := cmsg) 64 du13 drawv13 i (stc i) (bx i) (by_ i) (binf i).
Example ex_C41_back_many : all_end 1 back_prog (ok_or inv_err (fun r => shares_vec (fun i => fst (r i)) [g19 5; g19 0; g19 3] /\ synced (fun i => snd (r i)))).
Proof.
  refine (@C41_coords_to_point_many F13 _ _ G19 _ _ Z cmsg 64 du13 _ _ _ _ _ _ _ 1 (le_n 1) w13 drawv13 drawv13_len stc stc_synced bx by_ binf
    [((f13 5, f13 6), false); ((f13 3, f13 3), true); ((f13 6, f13 7), false)] [g19 5; g19 0; g19 3]
    (vec3 5 3 6 2 7 2 7 2 7) (vec3 6 3 7 2 7 2 7 2 7) (vec3 0 1 0 2 7 2 7 2 7) _ _).
  - repeat constructor.
  - cbn [length mask_points]. repeat constructor; ne.
Qed.
Example ex_C41_back_many_runs : all_done (exec 1 3000 back_prog) = true.
Proof. vm_compute. reflexivity. Qed.

(** ** Where the conversions go wrong *)
Lemma exec_end {M A X} cap n (ps : pid -> prog pid M A) (f : option (pid -> outcome A) -> option X) v :
  f None = None -> f (exec cap n ps) = Some v -> all_end cap ps (fun o => f (Some o) = Some v).
Proof.
  intros N E. destruct (exec cap n ps) as [o|] eqn:X0; [|congruence].
  destruct (exec_every _ _ _ X0) as (o' & m & -> & K). exists o, m. split; [exact E|exact K].
Qed.
Lemma eq_halves_run : all_end 1 (fun i => point_share_to_fieldshares 64 du13 conv13 i (st13 i) (sh19 6 1 2 i)) (fun o => opens3 (Some o) = Some [1; 6; 1]%Z).
Proof. apply (exec_end 1 3000 _ opens3); [reflexivity|]. vm_compute. reflexivity. Qed.
Lemma eq_halves_same : same_x (coords (F := F13) (half (sh19 6 1 2))) (coords (rest (sh19 6 1 2))) = true.
Proof. vm_compute. reflexivity. Qed.
Lemma eq_halves_comp i : sa (sh19 6 1 2 i) <> 0.
Proof. destruct i; cbn [sh19 sa]; ne. Qed.
Lemma eq_halves_zero : all_ok 1 (fun i => point_is_zero 64 du13 conv13 i (st13 i) (sh19 6 1 2 i)) (fun r => bit_shares (fun i => fst (r i)) true).
Proof.
  rewrite <- eq_halves_same. apply wp_all_ok.
  eapply wp_mono; [|exact (is_zero_ok du13 (le_n 1) w13 conv13 (@a2b_wp F13 _ _ Z cmsg 64 du13 _ _ 1 (le_n 1) w13) st13_synced
      (proj1 (sh19_shares 6 1 2)) eq_halves_comp)].
  intros r [R _]. exact R.
Qed.
(** Both partial sums equal: 6P = 3P + 3P is a sharing without zero components, but its flag opens to 1
    (infinity), and [is_zero] says true. *)
Theorem C41_equal_halves_refuted : exists (x : pid -> share G19) p, shares x p /\ (forall i, sa (x i) <> 0) /\ half x <> 0 /\ p <> 0 /\
  all_end 1 (fun i => point_share_to_fieldshares 64 du13 conv13 i (st13 i) (x i)) (fun o => exists a b, opens3 (Some o) = Some [a; b; 1]%Z) /\
  all_ok 1 (fun i => point_is_zero 64 du13 conv13 i (st13 i) (x i)) (fun r => bit_shares (fun i => fst (r i)) true).
Proof.
  exists (sh19 6 1 2), (g19 6). split; [apply sh19_shares|]. split; [exact eq_halves_comp|]. split; [ne|]. split; [ne|]. split; [|exact eq_halves_zero].
  destruct eq_halves_run as (o & m & Ho & K). exists o, m. split; [exists 1%Z, 6%Z; exact Ho|exact K].
Qed.
(** A zero partial sum: 6P shared as 7P + 12P + 6P is converted to the coordinates (5, 2), not (4, 1). *)
Theorem C41_zero_half_refuted : exists (x : pid -> share G19) p, shares x p /\ (forall i, sa (x i) <> 0) /\
  xy p = Some (f13 4, f13 1) /\
  all_end 1 (fun i => point_share_to_fieldshares 64 du13 conv13 i (st13 i) (x i)) (fun o => opens3 (Some o) = Some [5; 2; 0]%Z).
Proof.
  exists (sh19 6 7 12), (g19 6). split; [apply sh19_shares|]. split; [intros []; cbn [sh19 sa]; ne|]. split.
  - apply xy_eqb_spec. reflexivity.
  - apply (exec_end 1 3000 _ opens3); [reflexivity|]. vm_compute. reflexivity.
Qed.
(** The mask is the point itself: shares of (2, 7) = 2P become a sharing of 17P, without an error. *)
Theorem C41_mask_collision_refuted : exists (x y inf : pid -> share F13) (p : G19),
  shares x (f13 2) /\ shares y (f13 7) /\ shares inf (f13 0) /\ xy p = Some (f13 2, f13 7) /\ mask_point (C := G19) stc <> 0 /\
  all_end 1 (fun i => fieldshares_to_pointshare (C := G19) 64 du13 conv13 i (stc i) (x i) (y i) (inf i)) (fun o => opens1 (Some o) = Some 17%Z) /\
  p <> g19 17.
Proof.
  exists (sh13 2 2 7), (sh13 7 2 7), (sh13 0 1 1), (g19 2).
  split; [apply sh13_shares|]. split; [apply sh13_shares|]. split; [apply sh13_shares|]. split; [apply xy_eqb_spec; reflexivity|].
  split; [rewrite (proj1 ex_C41_mask); ne|]. split; [|ne].
  apply (exec_end 1 3000 _ opens1); [reflexivity|]. vm_compute. reflexivity.
Qed.

(** C36: one conversion, three non-zero components *)
Definition stt13 : pid -> rst (tape F13) := fun _ => mkRst [f13 1; f13 2] [f13 3; f13 4] (mkBC [] [] None) (mkBC [] [] None).
Example ex_C36_point : exists! u : tape F13, length u = 2%nat /\
  exists out, sees 1 P2 (fun j => pre (M := cmsg) j (joint P2 u stt13 j) (sh19 5 2 7 j)) (out, [enc [f13 9; f13 11]]).
Proof.
  refine (@C36_point_message F13 _ G19 _ _ cmsg _ 1 (le_n 1) P2 stt13 (sh19 5 2 7) (f13 9) (f13 11) _). intros []; vm_compute; reflexivity.
Qed.
(** The batch version does not hide the inputs: two batches of points, (5P, 5P) and (5P, 7P), with the same
    shares at party 2, such that no randomness of any party gives party 2 the same view. *)
Definition lk1 : pid -> list (share G19) := fun i => [sh19 5 2 7 i; sh19 5 2 7 i].
Definition lk2 : pid -> list (share G19) := fun i => [sh19 5 2 7 i; sh19 7 4 7 i].
Lemma lk1_nz j : forallb share_nonzero (lk1 j) = true.
Proof. destruct j; vm_compute; reflexivity. Qed.
Lemma lk2_nz j : forallb share_nonzero (lk2 j) = true.
Proof. destruct j; vm_compute; reflexivity. Qed.
Definition lkh (y : pid -> list (share G19)) k : F13 := fst (coords (sa (nth k (y P1) zero_share) + sb (nth k (y P1) zero_share))).
Lemma lk_differ : lkh lk1 0 - lkh lk1 1 <> lkh lk2 0 - lkh lk2 1.
Proof. assert (E : feqb (lkh lk1 0 - lkh lk1 1) (lkh lk2 0 - lkh lk2 1) = false) by (vm_compute; reflexivity). intros E'. apply feqb_spec in E'. congruence. Qed.
Theorem C36_batch_masks_refuted : exists (x x' : pid -> list (share G19)) ps ps',
  shares_vec x ps /\ shares_vec x' ps' /\ x P2 = x' P2 /\ (forall i, forallb share_nonzero (x i) = true) /\ (forall i, forallb share_nonzero (x' i) = true) /\
  forall (st st' : pid -> rst (tape F13)) v,
    sees 1 P2 (fun j => pre_many (M := cmsg) j (st j) (x j)) v -> ~ sees 1 P2 (fun j => pre_many (M := cmsg) j (st' j) (x' j)) v.
Proof.
  exists lk1, lk2, [g19 5; g19 5], [g19 5; g19 7].
  split; [|split; [|split; [|split; [|split]]]].
  - refine (Rep3Proofs.pvec_cons _ _ _ (fun j => eq_refl) (sh19_shares 5 2 7) _).
    refine (Rep3Proofs.pvec_cons _ _ _ (fun j => eq_refl) (sh19_shares 5 2 7) _). apply Rep3Proofs.pvec_nil. reflexivity.
  - refine (Rep3Proofs.pvec_cons _ _ _ (fun j => eq_refl) (sh19_shares 5 2 7) _).
    refine (Rep3Proofs.pvec_cons _ _ _ (fun j => eq_refl) (sh19_shares 7 4 7) _). apply Rep3Proofs.pvec_nil. reflexivity.
  - unfold lk1, lk2, sh19. repeat f_equal; apply Zmod_eq; vm_compute; reflexivity.
  - exact lk1_nz.
  - exact lk2_nz.
  - intros st st' v. exact (@pre_many_differ F13 _ G19 _ _ cmsg _ 1 (le_n 1) st st' lk1 lk2 2 (fun j => match j with P0 | P1 | P2 => eq_refl end) lk1_nz
      (fun j => match j with P0 | P1 | P2 => eq_refl end) lk2_nz 0%nat 1%nat Nat.lt_0_2 Nat.lt_1_2 lk_differ v).
Qed.

Print Assumptions C41_point_to_coords.
Print Assumptions C41_point_to_coords_many.
Print Assumptions C41_is_zero.
Print Assumptions C41_is_zero_many.
Print Assumptions C41_coords_to_point.
Print Assumptions C41_coords_to_point_many.
Print Assumptions C41_zero_share_panics.
Print Assumptions C41_trivial_share_panics.
Print Assumptions C41_equal_halves_refuted.
Print Assumptions C41_zero_half_refuted.
Print Assumptions C41_mask_collision_refuted.
Print Assumptions C36_point_message.
Print Assumptions C36_batch_message.
Print Assumptions C36_batch_masks_refuted.
