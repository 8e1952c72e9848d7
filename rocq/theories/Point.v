(** * Point shares and shares of coordinates

    rep3/detail.rs:417-535, rep3/conversion.rs:841-1330, rep3/pointshare.rs:225-265. *)
From Coq Require Import String List Arith NArith Bool.
From Verif Require Import Proc Alg Rep3Net Rep3 Conv.
Import ListNotations.
Set Implicit Arguments.
Local Open Scope grp_scope.

(** A curve y^2 = x^3 + ax + b as used by the code: a group with affine coordinates.
    [xy] is ark-ec [AffineRepr::xy] after [into_affine] ([None]: point at infinity); [of_xy] is
    [Affine::new] ([None]: its assertion fails). The laws are the chord rule and the shape of the curve. *)
Definition chord {F} {FF : Fld F} (p q : F * F) : F * F :=
  let l := rmul (snd q - snd p) (finv (fst q - fst p)) in
  let x := rmul l l - fst p - fst q in
  (x, rmul l (fst p - x) - snd p).
Class Curve (F C : Type) {FF : Fld F} {AC : AbGrp C} := {
  xy : C -> option (F * F);
  of_xy : F -> F -> option C;
  xy_none : forall p, xy p = None <-> p = 0;
  of_xy_spec : forall x y p, of_xy x y = Some p <-> xy p = Some (x, y);
  xy_neg : forall p x y, xy p = Some (x, y) -> xy (- p) = Some (x, - y);
  xy_same : forall p q x y y', xy p = Some (x, y) -> xy q = Some (x, y') -> q = p \/ q = - p;
  xy_chord : forall p q a b, xy p = Some a -> xy q = Some b -> fst a <> fst b -> xy (p + q) = Some (chord a b)
}.
Arguments Curve F C {FF AC}.

Section Point.
  Context {F : Type} `{FU : FieldUint F} {C : Type} {AC : AbGrp C} {CV : Curve F C}.
  Context {S M : Type} (W : nat) (du : nat -> S -> N * S) {DF : Draw S F} {DC : Draw S C}.
  Context {EN : Enc M (list N)} {ENN : Enc M (list (N * N))}
          {EL : Enc M (list (list N))} {ELL : Enc M (list (list N * list N))} {EF : Enc M (list F)}
          {ELF : Enc M (list (list F))}.
  Notation prog := (prog pid M).
  (** conversion.rs:59-68 [a2b_selector]: the conversion configured in the state *)
  Context (a2b : pid -> rst S -> share F -> prog (share N * rst S)).
  (** rngs.rs:137-156: elements produced by one [fill_bytes] *)
  Context (drawv : nat -> S -> list F * S).

  (** ** detail.rs:417-452 [point_addition] *)
  Definition point_addition (i : pid) (st : rst S) (a_x a_y b_x b_y : share F) : prog ((share F * share F * share F) * rst S) :=
    let diff_x := shsub b_x a_x in
    let diff_y := shsub b_y a_y in
    z <- eq_ W du a2b i st zero_share diff_x ;;
    let is_zero := fst z in
    m <- mul i (snd z) (add_public i (shneg diff_x) rone) is_zero ;;
    iv <- inv i (snd m) (shadd diff_x (fst m)) ;;
    l <- mul i (snd iv) diff_y (fst iv) ;;
    l2 <- mul i (snd l) (fst l) (fst l) ;;
    let x := shsub (shsub (fst l2) a_x) b_x in
    t <- mul i (snd l2) (fst l) (shsub a_x x) ;;
    Ret ((x, shsub (fst t) a_y, is_zero), snd t).
  (** detail.rs:460-504 [point_addition_many] *)
  Definition point_addition_many (i : pid) (st : rst S) (a_x a_y b_x b_y : list (share F))
    : prog ((list (share F) * list (share F) * list (share F)) * rst S) :=
    let diff_xs := map2 shsub b_x a_x in
    let diff_ys := map2 shsub b_y a_y in
    z <- eq_many W du i st (repeat zero_share (length diff_xs)) diff_xs ;;
    let is_zero := fst z in
    m <- mul_vec i (snd z) (map (sub_public_by_shared i rone) diff_xs) is_zero ;;
    iv <- inv_vec i (snd m) (map2 shadd diff_xs (fst m)) ;;
    l <- mul_vec i (snd iv) diff_ys (fst iv) ;;
    l2 <- mul_vec i (snd l) (fst l) (fst l) ;;
    let x := map2 shsub (map2 shsub (fst l2) a_x) b_x in
    t <- mul_vec i (snd l2) (fst l) (map2 shsub a_x x) ;;
    Ret ((x, map2 shsub (fst t) a_y, is_zero), snd t).

  (** detail.rs:507-535 [point_from_xy] for the two supported curves *)
  Definition point_from_xy (x y is_infinity : F) : prog C :=
    if (1 <? to_uint is_infinity)%N then Fail (Eyre "Invalid is_infinity")
    else if feqb is_infinity rone then Ret 0
    else match of_xy x y with
         | Some p => Ret p
         | None => Fail (Panic "assertion failed: is_on_curve")
         end.

  (** [is_zero] of a point (ark-ff [Zero]) *)
  Definition pzero (p : C) : bool := match xy p with None => true | _ => false end.
  Definition share_nonzero (x : share C) : bool := negb (pzero (sa x) || pzero (sb x)).
  (** [if let Some((x, y)) = p.into_affine().xy()] with 0 otherwise *)
  Definition coords (p : C) : F * F := match xy p with Some c => c | None => (0, 0) end.
  (** the first components of the coordinate shares of [x01] (conversion.rs:868-894) *)
  Definition pre_x01 (i : pid) (x : share C) (r : F * F) : F * F :=
    match i with
    | P1 => (fst (coords (sa x + sb x)) + fst r, snd (coords (sa x + sb x)) + snd r)
    | _ => r
    end.
  (** the coordinate shares of [x2] (conversion.rs:872-875, 889-892) *)
  Definition pre_x2 (i : pid) (x : share C) : share F * share F :=
    match i with
    | P0 => (mkShare 0 (fst (coords (sb x))), mkShare 0 (snd (coords (sb x))))
    | P1 => (zero_share, zero_share)
    | P2 => (mkShare (fst (coords (sa x))) 0, mkShare (snd (coords (sa x))) 0)
    end.
  (** conversion.rs:842-906 [point_share_to_fieldshares_pre]: (x01_x, x01_y, x2_x, x2_y) *)
  Definition pre (i : pid) (st : rst S) (x : share C)
    : prog ((share F * share F * (share F * share F)) * rst S) :=
    if share_nonzero x then
      let rx := masking st in
      let ry := masking (snd rx) in
      let a := pre_x01 i x (fst rx, fst ry) in
      b <- reshare_many i [fst a; snd a] ;;
      match b with
      | [bx; by_] => Ret ((mkShare (fst a) bx, mkShare (snd a) by_, pre_x2 i x), snd ry)
      | _ => Fail (Eyre "Expected 2 elements")
      end
    else Fail (Panic "This fails if one share is zero").
  (** conversion.rs:910-1000 [point_share_to_fieldshares_pre_many]: [vec![mask; input_len]] evaluates
      the mask once and clones it *)
  Definition pre_many (i : pid) (st : rst S) (x : list (share C))
    : prog ((list (share F) * list (share F) * (list (share F) * list (share F))) * rst S) :=
    if forallb share_nonzero x then
      let n := length x in
      let rx := masking st in
      let ry := masking (snd rx) in
      let a := map2 (pre_x01 i) x (map2 pair (repeat (fst rx) n) (repeat (fst ry) n)) in
      b <- reshare_many i (map fst a ++ map snd a) ;;
      if (length b =? 2 * n)%nat then
        Ret ((map2 mkShare (map fst a) (firstn n b), map2 mkShare (map snd a) (skipn n b),
              (map (fun x => fst (pre_x2 i x)) x, map (fun x => snd (pre_x2 i x)) x)), snd ry)
      else Fail (Eyre "Expected 2*{input_len} elements")
    else Fail (Panic "This fails if one share is zero").
  (** conversion.rs:1003-1021 [point_share_to_fieldshares] *)
  Definition point_share_to_fieldshares (i : pid) (st : rst S) (x : share C) : prog ((share F * share F * share F) * rst S) :=
    r <- pre i st x ;;
    let v := fst r in
    point_addition i (snd r) (fst (fst v)) (snd (fst v)) (fst (snd v)) (snd (snd v)).
  (** conversion.rs:1023-1041 [point_share_to_fieldshares_many] *)
  Definition point_share_to_fieldshares_many (i : pid) (st : rst S) (x : list (share C))
    : prog ((list (share F) * list (share F) * list (share F)) * rst S) :=
    r <- pre_many i st x ;;
    let v := fst r in
    point_addition_many i (snd r) (fst (fst v)) (snd (fst v)) (fst (snd v)) (snd (snd v)).

  (** pointshare.rs:225-240 [is_zero] *)
  Definition point_is_zero (i : pid) (st : rst S) (x : share C) : prog ((bool * bool) * rst S) :=
    r <- pre i st x ;;
    let v := fst r in
    e <- eq_bit W du a2b i (snd r) (fst (fst v)) (fst (snd v)) ;;
    Ret ((negb (sa (fst e) =? 0)%N, negb (sb (fst e) =? 0)%N), snd e).
  (** pointshare.rs:243-265 [is_zero_many] *)
  Definition point_is_zero_many (i : pid) (st : rst S) (x : list (share C)) : prog (list (bool * bool) * rst S) :=
    r <- pre_many i st x ;;
    let v := fst r in
    e <- eq_bit_many W du i (snd r) (fst (fst v)) (fst (snd v)) ;;
    if (length (fst e) =? length x)%nat then
      Ret (map (fun s => (negb (sa s =? 0)%N, negb (sb s =? 0)%N)) (fst e), snd e)
    else Fail (Eyre "Expected {input_len} elements").

  (** ** Shares of coordinates to a point share *)
  Definition ckey_sum (k : C * C * C) : C := fst (fst k) + snd (fst k) + snd k.
  (** conversion.rs:1062-1096 (1175-1221 per element): (res, coordinates added to the masks) *)
  Definition f2p_keys (i : pid) (st : rst S) : prog ((share C * (F * F)) * rst S) :=
    match i with
    | P0 => match three_keys (X := C) (bc2 st) with
            | Some k => Ret ((mkShare 0 (- ckey_sum (fst k)), (0, 0)), set_bc2 st (snd k))
            | None => Fail (Panic "unreachable")
            end
    | P1 => match three_keys (X := C) (bc1 st) with
            | Some k => Ret ((mkShare (- ckey_sum (fst k)) 0, (0, 0)), set_bc1 st (snd k))
            | None => Fail (Panic "unreachable")
            end
    | P2 => match three_keys (X := C) (bc1 st), three_keys (X := C) (bc2 st) with
            | Some k2, Some k3 =>
                Ret ((mkShare (- ckey_sum (fst k3)) (- ckey_sum (fst k2)), coords (ckey_sum (fst k2) + ckey_sum (fst k3))),
                     set_bc2 (set_bc1 st (snd k2)) (snd k3))
            | _, _ => Fail (Panic "unreachable")
            end
    end.
  (** conversion.rs:1114-1137: reveal the masked point to parties 0 and 1 *)
  Definition f2p_open (i : pid) (res : share C) (zx zy zi : share F) : prog (share C) :=
    let point rcv :=
      match rcv with
      | [cx; cy; ci] => point_from_xy (sa zx + sb zx + cx) (sa zy + sb zy + cy) (sa zi + sb zi + ci)
      | _ => Fail (Eyre "Expected 3 elements")
      end in
    match i with
    | P0 => _ <- send_next_many P0 [sb zx; sb zy; sb zi] ;;
            rcv <- recv_prev_many P0 ;;
            p <- point rcv ;; Ret (mkShare p (sb res))
    | P1 => rcv <- recv_prev_many P1 ;;
            p <- point rcv ;; Ret (mkShare (sa res) p)
    | P2 => _ <- send_next_many P2 [sb zx; sb zy; sb zi] ;; Ret res
    end.
  (** conversion.rs:1043-1140 [fieldshares_to_pointshare] *)
  Definition fieldshares_to_pointshare (i : pid) (st : rst S) (x y is_infinity : share F) : prog (share C * rst S) :=
    let rx := masking st in
    let ry := masking (snd rx) in
    k <- f2p_keys i (snd ry) ;;
    let res := fst (fst k) in
    let ax := fst (snd (fst k)) + fst rx in
    let ay := snd (snd (fst k)) + fst ry in
    b <- reshare_many i [ax; ay] ;;
    match b with
    | [bx; by_] =>
        let y_x := mkShare ax bx in
        let y_y := mkShare ay by_ in
        z <- point_addition i (snd k) x y y_x y_y ;;
        let zv := fst z in
        c <- cmux_vec i (snd z) is_infinity [y_x; y_y] [fst (fst zv); snd (fst zv)] ;;
        match fst c with
        | [cx; cy] => r <- f2p_open i res cx cy (snd zv) ;; Ret (r, snd c)
        | _ => Fail (Panic "index out of bounds")
        end
    | _ => Fail (Eyre "Expected 2 elements")
    end.

  (** the loop of conversion.rs:1175-1221 *)
  Fixpoint f2p_keys_many (n : nat) (i : pid) (st : rst S) : prog (list (share C * (F * F)) * rst S) :=
    match n with
    | O => Ret ([], st)
    | Datatypes.S n =>
        k <- f2p_keys i st ;;
        r <- f2p_keys_many n i (snd k) ;;
        Ret (fst k :: fst r, snd r)
    end.
  (** the loop of conversion.rs:1299-1305 and 1313-1319: stops at the first error *)
  Fixpoint f2p_points (l : list (F * (F * F))) : prog (list C) :=
    match l with
    | [] => Ret []
    | (x, (y, inf)) :: l => p <- point_from_xy x y inf ;; ps <- f2p_points l ;; Ret (p :: ps)
    end.
  (** conversion.rs:1291-1326 *)
  Definition f2p_open_many (n : nat) (i : pid) (res : list (share C)) (zx zy zi : list (share F)) : prog (list (share C)) :=
    let z_b := map sb zx ++ map sb zy ++ map sb zi in
    let z_a := map sa zx ++ map sa zy ++ map sa zi in
    let points rcv :=
      if (length rcv =? 3 * n)%nat then
        let s := map2 gadd (map2 gadd z_a z_b) rcv in
        f2p_points (map2 pair (firstn n s) (map2 pair (firstn n (skipn n s)) (skipn n (skipn n s))))
      else Fail (Eyre "Expected 3 * {} elements") in
    match i with
    | P0 => _ <- send_next_many P0 z_b ;;
            rcv <- recv_prev_many P0 ;;
            ps <- points rcv ;; Ret (map2 (fun p r => mkShare p (sb r)) ps res)
    | P1 => rcv <- recv_prev_many P1 ;;
            ps <- points rcv ;; Ret (map2 (fun p r => mkShare (sa r) p) ps res)
    | P2 => _ <- send_next_many P2 z_b ;; Ret res
    end.
  (** conversion.rs:1143-1330 [fieldshares_to_pointshare_many]; the two indexed reads of the received
      vectors panic when they are too short *)
  Definition fieldshares_to_pointshare_many (i : pid) (st : rst S) (x y is_infinity : list (share F))
    : prog (list (share C) * rst S) :=
    let n := length x in
    let rx := masking_vec_bytes drawv n st in
    let ry := masking_vec_bytes drawv n (snd rx) in
    k <- f2p_keys_many n i (snd ry) ;;
    let res := map fst (fst k) in
    let ax := map2 (fun k r => fst (snd k) + r) (fst k) (fst rx) in
    let ay := map2 (fun k r => snd (snd k) + r) (fst k) (fst ry) in
    b <- reshare_many i [ax; ay] ;;
    match b with
    | [bx; by_] =>
        if ((length bx <? n) || (length by_ <? n))%nat then Fail (Panic "index out of bounds")
        else
        let y_x := map2 mkShare ax bx in
        let y_y := map2 mkShare ay by_ in
        z <- point_addition_many i (snd k) x y y_x y_y ;;
        let zv := fst z in
        let z0 := fst (fst zv) in
        let z1 := snd (fst zv) in
        m <- mul_vec i (snd z) (is_infinity ++ is_infinity) (map2 shsub y_x z0 ++ map2 shsub y_y z1) ;;
        let first := map2 shadd (firstn (length is_infinity) (fst m)) z0 in
        let second := map2 shadd (skipn (length is_infinity) (fst m)) z1 in
        r <- f2p_open_many n i res first second (snd zv) ;;
        Ret (r, snd m)
    | _ => Fail (Eyre "Expected 2 vectors")
    end.
End Point.
