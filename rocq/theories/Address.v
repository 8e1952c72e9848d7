(** * Host addresses

    Models [Address] of mpc-net/src/config.rs:15-91. A string is the list of its bytes in UTF-8; the
    separator ':' is an ASCII character, so splitting the characters is splitting the bytes. *)
From Coq Require Import String Bool Arith NArith Lia.
From Coq Require Import Init.Byte Strings.Byte.
From Coq Require Import List.
From Verif Require Import Proc.
Import ListNotations.
Set Implicit Arguments.

Definition colon : byte := x3a.
Definition plus : byte := x2b.
Definition minus : byte := x2d.
Definition byte_eqb (a b : byte) : bool := N.eqb (to_N a) (to_N b).
(** [str::split(':')], as used in config.rs:61 *)
Fixpoint split (s : list byte) : list (list byte) :=
  match s with
  | [] => [[]]
  | b :: s => if byte_eqb b colon then [] :: split s
              else match split s with p :: ps => (b :: p) :: ps | [] => [[b]] end
  end.
(** [char::to_digit(10)] *)
Definition to_digit (b : byte) : option N :=
  if ((48 <=? to_N b) && (to_N b <=? 57))%N then Some (to_N b - 48)%N else None.
(** [u16::from_str] of the standard library, as used in config.rs:66 *)
Inductive ires := IOk (n : N) | IEmpty | IInvalidDigit | IPosOverflow.
Fixpoint parse_digits (s : list byte) (result : N) : ires :=
  match s with
  | [] => IOk result
  | b :: s =>
      match to_digit b with
      | None => IInvalidDigit
      | Some x =>
          if (65536 <=? result * 10)%N then IPosOverflow
          else if (65536 <=? result * 10 + x)%N then IPosOverflow else parse_digits s (result * 10 + x)%N
      end
  end.
Definition parse_u16 (s : list byte) : ires :=
  match s with
  | [] => IEmpty
  | [b] => if byte_eqb b plus || byte_eqb b minus then IInvalidDigit else parse_digits [b] 0
  | b :: s' => if byte_eqb b plus then parse_digits s' 0 else parse_digits s 0
  end.
(** config.rs:38-43 [ParseAddressError] *)
Inductive aerr := InvalidFormat | InvalidPort (e : ires).
(** config.rs:58-70 [from_str], also 85-90 [deserialize] *)
Definition from_str (s : list byte) : (list byte * N) + aerr :=
  match split s with
  | [hostname; port] => match parse_u16 port with IOk p => inl (hostname, p) | e => inr (InvalidPort e) end
  | _ => inr InvalidFormat
  end.
(** decimal representation of a [u16] *)
Definition digit (d : N) : byte := match of_N (48 + d) with Some b => b | None => x30 end.
Fixpoint dec_loop (fuel : nat) (n : N) : list byte :=
  match fuel with
  | O => []
  | S fuel => if (n <? 10)%N then [digit n] else dec_loop fuel (n / 10) ++ [digit (n mod 10)]
  end.
Definition dec_u16 (n : N) : list byte := dec_loop 5 n.
(** config.rs:30-34 [fmt], also 79-83 [serialize] *)
Definition display (a : list byte * N) : list byte := fst a ++ colon :: dec_u16 (snd a).

(** * Specification *)
Definition is_digit (b : byte) : Prop := (48 <= to_N b <= 57)%N.
Definition value (ds : list byte) : N := fold_left (fun a b => a * 10 + (to_N b - 48))%N ds 0%N.
Definition colons (s : list byte) : nat := length (filter (fun b => byte_eqb b colon) s).

(** * Proofs *)
Lemma byte_eqb_eq a b : byte_eqb a b = true <-> a = b.
Proof.
  unfold byte_eqb. rewrite N.eqb_eq. split; [|congruence]. intros H.
  assert (E : of_N (to_N a) = of_N (to_N b)) by congruence. rewrite !of_to_N in E. congruence.
Qed.
Lemma split_len s : length (split s) = S (colons s).
Proof.
  unfold colons. induction s as [|b s IH]; [reflexivity|]. cbn [split filter]. destruct (byte_eqb b colon); cbn [length]; [rewrite IH; reflexivity|].
  destruct (split s); [discriminate|]. cbn [length] in *. exact IH.
Qed.
Lemma split_single s : colons s = 0 -> split s = [s].
Proof.
  unfold colons. induction s as [|b s IH]; [reflexivity|]. cbn [split filter]. destruct (byte_eqb b colon); [discriminate|].
  intros H. rewrite IH by exact H. reflexivity.
Qed.
Lemma split_app h p : colons h = 0 -> split (h ++ colon :: p) = h :: split p.
Proof.
  unfold colons. induction h as [|b h IH]; intros H; cbn [app split filter] in *.
  - reflexivity.
  - destruct (byte_eqb b colon); [discriminate|]. rewrite IH by exact H. reflexivity.
Qed.
Lemma split_two s : forall h p, split s = [h; p] -> s = h ++ colon :: p /\ colons h = 0 /\ colons p = 0.
Proof.
  unfold colons. induction s as [|b s IH]; intros h p E; [discriminate|]. cbn [split] in E. destruct (byte_eqb b colon) eqn:Eb.
  - apply byte_eqb_eq in Eb. subst b. injection E as <- E. assert (L : length (split s) = 1) by (rewrite E; reflexivity).
    rewrite split_len in L. assert (C : colons s = 0) by lia. rewrite (split_single _ C) in E. injection E as <-. auto.
  - destruct (split s) as [|q qs] eqn:Es; [discriminate|]. injection E as <- E. destruct (IH q p ltac:(rewrite E; reflexivity)) as (A & B & C).
    subst s. cbn [app filter]. rewrite Eb. auto.
Qed.
Lemma to_digit_spec b : match to_digit b with Some x => is_digit b /\ x = (to_N b - 48)%N | None => ~ is_digit b end.
Proof.
  unfold to_digit, is_digit. destruct (48 <=? to_N b)%N eqn:E1; destruct (to_N b <=? 57)%N eqn:E2; cbn [andb];
    rewrite ?N.leb_le, ?N.leb_gt in *; try lia.
Qed.
Lemma value_acc ds : forall a, fold_left (fun a b => a * 10 + (to_N b - 48))%N ds a = (a * 10 ^ N.of_nat (length ds) + value ds)%N.
Proof.
  unfold value. induction ds as [|b ds IH]; intros a; cbn [fold_left length]; [cbn; lia|].
  rewrite IH, (IH (0 * 10 + _)%N), Nat2N.inj_succ, N.pow_succ_r'. lia.
Qed.
Lemma parse_digits_ok s : forall r n, parse_digits s r = IOk n ->
  Forall is_digit s /\ n = fold_left (fun a b => a * 10 + (to_N b - 48))%N s r /\ (r < 65536 -> n < 65536)%N.
Proof.
  induction s as [|b s IH]; intros r n; cbn [parse_digits fold_left].
  - intros E. injection E as <-. auto.
  - pose proof (to_digit_spec b) as Hd. destruct (to_digit b) as [x|]; [|discriminate]. destruct Hd as (Hd & ->).
    destruct (65536 <=? r * 10)%N eqn:E1; [discriminate|]. destruct (65536 <=? r * 10 + (to_N b - 48))%N eqn:E2; [discriminate|].
    apply N.leb_gt in E2. intros E. destruct (IH _ _ E) as (A & B & C). split; [constructor; assumption|]. split; [exact B|]. intros _. apply C. lia.
Qed.
Lemma fold_ge ds : forall a, (a <= fold_left (fun a b => a * 10 + (to_N b - 48))%N ds a)%N.
Proof. induction ds as [|b ds IH]; intros a; cbn [fold_left]; [lia|]. specialize (IH (a * 10 + (to_N b - 48))%N). lia. Qed.
Lemma parse_digits_complete s : forall r, Forall is_digit s -> (fold_left (fun a b => a * 10 + (to_N b - 48))%N s r < 65536)%N ->
  parse_digits s r = IOk (fold_left (fun a b => a * 10 + (to_N b - 48))%N s r).
Proof.
  induction s as [|b s IH]; intros r Hd Hlt; cbn [parse_digits fold_left] in *; [reflexivity|]. inversion Hd as [|? ? D1 D2]; subst.
  pose proof (to_digit_spec b) as Hx. destruct (to_digit b) as [x|]; [|contradiction]. destruct Hx as (_ & ->).
  pose proof (fold_ge s (r * 10 + (to_N b - 48))%N) as G.
  rewrite (proj2 (N.leb_gt 65536 (r * 10))) by lia. rewrite (proj2 (N.leb_gt 65536 (r * 10 + (to_N b - 48)))) by lia. apply IH; assumption.
Qed.
Lemma parse_u16_eq s : parse_u16 s =
  match s with
  | [] => IEmpty
  | b :: s' => if byte_eqb b plus then match s' with [] => IInvalidDigit | _ => parse_digits s' 0 end else parse_digits s 0
  end.
Proof.
  destruct s as [|b [|c s]]; [reflexivity| |reflexivity]. cbn [parse_u16]. destruct (byte_eqb b plus) eqn:E1; [reflexivity|]. cbn [orb].
  destruct (byte_eqb b minus) eqn:E2; [|reflexivity]. apply byte_eqb_eq in E2. subst b. reflexivity.
Qed.
Lemma plus_not_digit : ~ is_digit plus.
Proof. unfold is_digit, plus. cbn. lia. Qed.
Lemma colon_not_digit : ~ is_digit colon.
Proof. unfold is_digit, colon. cbn. lia. Qed.
Lemma parse_u16_spec s n : parse_u16 s = IOk n <->
  exists sign ds, s = sign ++ ds /\ (sign = [] \/ sign = [plus]) /\ ds <> [] /\ Forall is_digit ds /\ value ds = n /\ (n < 65536)%N.
Proof.
  rewrite parse_u16_eq. split.
  - destruct s as [|b s]; [discriminate|]. destruct (byte_eqb b plus) eqn:E.
    + apply byte_eqb_eq in E. subst b. destruct s as [|c s]; [discriminate|]. intros H. destruct (parse_digits_ok _ _ H) as (A & B & C).
      exists [plus], (c :: s). repeat split; auto; [discriminate|]. apply C. reflexivity.
    + intros H. destruct (parse_digits_ok _ _ H) as (A & B & C). exists [], (b :: s). repeat split; auto; [discriminate|]. apply C. reflexivity.
  - intros (sign & ds & -> & Hs & Hne & Hd & <- & Hlt). destruct Hs as [-> | ->]; cbn [app].
    + destruct ds as [|b ds]; [congruence|]. destruct (byte_eqb b plus) eqn:E.
      * apply byte_eqb_eq in E. subst b. inversion Hd; subst. elim plus_not_digit. assumption.
      * apply parse_digits_complete; assumption.
    + replace (byte_eqb plus plus) with true by reflexivity. destruct ds as [|b ds]; [congruence|]. apply parse_digits_complete; assumption.
Qed.
Lemma digits_no_colon ds : Forall is_digit ds -> colons ds = 0.
Proof.
  unfold colons. induction 1 as [|b ds Hb _ IH]; [reflexivity|]. cbn [filter]. destruct (byte_eqb b colon) eqn:E; [|exact IH].
  apply byte_eqb_eq in E. subst b. elim colon_not_digit. exact Hb.
Qed.
Lemma from_str_spec s h p : from_str s = inl (h, p) <->
  exists sign ds, s = h ++ colon :: sign ++ ds /\ ~ In colon h /\ (sign = [] \/ sign = [plus]) /\ ds <> [] /\
    Forall is_digit ds /\ value ds = p /\ (p < 65536)%N.
Proof.
  assert (Hcol : forall l, colons l = 0 <-> ~ In colon l).
  { intros l. unfold colons. induction l as [|b l IH]; [cbn; tauto|]. cbn [filter In]. destruct (byte_eqb b colon) eqn:E.
    - apply byte_eqb_eq in E. subst b. cbn [length]. split; [lia|]. intros H. elim H. auto.
    - rewrite IH. split; [|tauto]. intros H [->|X]; [|tauto]. unfold byte_eqb in E. rewrite N.eqb_refl in E. discriminate. }
  unfold from_str. split.
  - destruct (split s) as [|a [|b [|c l]]] eqn:Es; try discriminate. destruct (parse_u16 b) as [n| | |] eqn:Ep; try discriminate.
    intros E. injection E as <- <-. destruct (split_two _ Es) as (-> & Hh & _). apply parse_u16_spec in Ep.
    destruct Ep as (sign & ds & -> & A & B & C & D & F). exists sign, ds. repeat split; auto. apply Hcol. exact Hh.
  - intros (sign & ds & -> & Hh & Hs & Hne & Hd & Hv & Hlt). apply Hcol in Hh. rewrite split_app by exact Hh.
    assert (Hc : colons (sign ++ ds) = 0).
    { unfold colons. rewrite filter_app, app_length. fold (colons sign). fold (colons ds). rewrite (digits_no_colon Hd). destruct Hs as [-> | ->]; reflexivity. }
    rewrite (split_single _ Hc). assert (Ep : parse_u16 (sign ++ ds) = IOk p) by (apply parse_u16_spec; eauto 10). rewrite Ep. reflexivity.
Qed.
Lemma digit_N d : (d < 10)%N -> to_N (digit d) = (48 + d)%N.
Proof.
  intros H. unfold digit. destruct (of_N (48 + d)) as [b|] eqn:E.
  - apply to_of_N. exact E.
  - apply of_N_None_iff in E. lia.
Qed.
Lemma dec_loop_ok fuel : forall n, (n < 10 ^ N.of_nat fuel)%N -> (0 < fuel)%nat ->
  Forall is_digit (dec_loop fuel n) /\ value (dec_loop fuel n) = n /\ dec_loop fuel n <> [].
Proof.
  induction fuel as [|fuel IH]; intros n Hn Hf; [lia|]. cbn [dec_loop]. destruct (n <? 10)%N eqn:E.
  - apply N.ltb_lt in E. unfold value, is_digit. cbn [fold_left]. rewrite digit_N by exact E. split; [constructor; [unfold is_digit; rewrite digit_N by exact E; lia|constructor]|].
    split; [lia|discriminate].
  - apply N.ltb_ge in E. assert (Hm : (n mod 10 < 10)%N) by (apply N.mod_lt; discriminate).
    destruct fuel as [|fuel]; [cbn in Hn; lia|].
    destruct (IH (n / 10)%N) as (A & B & C).
    + apply N.div_lt_upper_bound; [discriminate|]. rewrite <- N.pow_succ_r'. rewrite <- Nat2N.inj_succ. exact Hn.
    + lia.
    + split; [apply Forall_app; split; [exact A|constructor; [unfold is_digit; rewrite digit_N by exact Hm; clear -Hm; revert Hm; generalize (n mod 10)%N; lia|constructor]]|]. split.
      * unfold value. rewrite fold_left_app. fold (value (dec_loop (S fuel) (n / 10))). rewrite B. cbn [fold_left]. rewrite digit_N by exact Hm.
        pose proof (N.div_mod n 10 ltac:(discriminate)) as D. revert D. generalize (n / 10)%N (n mod 10)%N. lia.
      * intros X. apply app_eq_nil in X. destruct X as (_ & X). discriminate.
Qed.
Lemma roundtrip h p : ~ In colon h -> (p < 65536)%N -> from_str (display (h, p)) = inl (h, p).
Proof.
  intros Hh Hp. apply from_str_spec. destruct (@dec_loop_ok 5 p) as (A & B & C).
  - eapply N.lt_trans; [exact Hp|]. reflexivity.
  - lia.
  - exists [], (dec_u16 p). unfold display, dec_u16. cbn [fst snd app]. repeat split; auto.
Qed.
Lemma bad_format s : from_str s = inr InvalidFormat <-> colons s <> 1.
Proof.
  unfold from_str. pose proof (split_len s) as L. destruct (split s) as [|a [|b [|c l]]] eqn:Es; cbn [length] in L.
  - discriminate.
  - split; [lia|reflexivity].
  - split; [|lia]. destruct (parse_u16 b); discriminate.
  - split; [lia|reflexivity].
Qed.
(** the text of an address whose host contains a ':' (an IPv6 literal) cannot be read back *)
Lemma no_roundtrip h p : In colon h -> (p < 65536)%N -> from_str (display (h, p)) = inr InvalidFormat.
Proof.
  intros Hh Hp. apply bad_format. unfold display, colons. cbn [fst snd]. rewrite filter_app, app_length. cbn [filter].
  replace (byte_eqb colon colon) with true by reflexivity. cbn [length].
  assert (H : 0 < length (filter (fun b => byte_eqb b colon) h)).
  { apply in_split in Hh. destruct Hh as (a & b & ->). rewrite filter_app, app_length. cbn [filter].
    replace (byte_eqb colon colon) with true by reflexivity. cbn [length]. lia. }
  lia.
Qed.
