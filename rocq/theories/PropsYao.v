(** * Properties of Yao shares and of the garbled-circuit functions over the network (C42-C45) *)
From Coq Require Import String List Arith NArith ZArith Lia Bool.
From Verif Require Import Proc Alg Zp Rep3Net Rep3 Rep3Spec Rep3Proofs Rep3Wp Uint Conv ConvWp CmpWp Exec Garble Circuits CircuitsOk CircuitsFun Garbled
  Yao YaoSpec YaoWp YaoOut YaoApi YaoStream Concrete ConcreteU ConcreteY.
Import ListNotations.
Local Open Scope grp_scope.

(** Every theorem is for an arbitrary hash function, digest, generators, labels and shares, and
    for every schedule of the three parties.  [yao_shares d w bs]: garblers P1 and P2 hold the
    labels of zero, evaluator P0 the labels of the bits [bs], offset [d].  [delta] is what each
    party passes as the offset; only the garblers' values matter.

    Functions with decoded outputs need one more hypothesis, [run_separated ..]: no output wire of
    the garbled circuit has two labels with the same hash (fancy_garbling's evaluator fails
    otherwise).  With a cryptographic hash it fails with probability about 2^-128 per wire. *)
Section C42.
  Context {F : Type} `{FU : FieldUint F} {S M : Type} (W : nat) (du : nat -> S -> N * S) {DF : Draw S F}.
  Context {Seed : Type} {SS : Seeded S Seed} {DS : Draw S Seed} {EN : Enc M (list N)} {ENN : Enc M (list (N * N))}.
  Context (hash : N -> N -> N) (gtweak : N -> N) (otweak : N -> bool -> N).
  Context {Dg : Type} {ED : Enc M (list Dg)} (digest : list N -> Dg) (dg_eqb : Dg -> Dg -> bool).
  Context (draw_label draw_delta : S -> N * S) (dg_eqb_spec : forall x y, dg_eqb x y = true <-> x = y).
  Context (cap : nat) (cap_pos : (1 <= cap)%nat) (p_odd : N.odd (fu_p (F := F)) = true) (width : (mbs F + 2 <= W)%nat).
  Context (delta_odd : forall s, color (fst (draw_delta s)) = true).
  Context (st : pid -> rst S) (Hs : synced st) (rg : pid -> S).

  Theorem C42_a2y d delta a x : color d = true -> knows_delta d delta -> shares a x ->
    all_ok cap (fun i => a2y (F := F) (Seed := Seed) W hash gtweak digest dg_eqb draw_label i (a i) (delta i) (st i) (rg i))
      (fun r => yao_shares d (fun i => fst (r i)) (field_to_bits x) /\ synced (fun i => fst (snd (r i)))).
  Proof. exact (fun Hd Hk Ha => wp_all_ok (a2y_wp hash gtweak digest dg_eqb draw_label dg_eqb_spec cap_pos p_odd width rg Hd Hk Hs Ha)). Qed.
  Theorem C42_a2y_many d delta a xs : color d = true -> knows_delta d delta -> shares_vec a xs ->
    all_ok cap (fun i => a2y_many (F := F) (Seed := Seed) W hash gtweak digest dg_eqb draw_label i (a i) (delta i) (st i) (rg i))
      (fun r => pvec (yao_shares d) (fun i => fst (r i)) (map field_to_bits xs) /\ synced (fun i => fst (snd (r i)))).
  Proof. exact (fun Hd Hk Ha => wp_all_ok (a2y_many_wp hash gtweak digest dg_eqb draw_label dg_eqb_spec cap_pos p_odd width rg Hd Hk Hs Ha)). Qed.
  Theorem C42_a2y_streaming d delta a x : color d = true -> knows_delta d delta -> shares a x ->
    all_ok cap (fun i => a2y_streaming (F := F) (Seed := Seed) W hash gtweak digest dg_eqb draw_label i (a i) (delta i) (st i) (rg i))
      (fun r => yao_shares d (fun i => fst (r i)) (field_to_bits x) /\ synced (fun i => fst (snd (r i)))).
  Proof. exact (fun Hd Hk Ha => wp_all_ok (a2y_streaming_wp hash gtweak digest dg_eqb draw_label dg_eqb_spec cap_pos p_odd width rg Hd Hk Hs Ha)). Qed.
  (** [bval bs]: the number with bits [bs], least significant first *)
  Theorem C42_y2b d w bs : color d = true -> yao_shares d w bs -> (length bs <= W)%nat ->
    all_ok cap (fun i => y2b W du i (w i) (st i))
      (fun r => shares (fun i => fst (r i)) (bval bs) /\ synced (fun i => snd (r i))).
  Proof. exact (fun Hd Hw Hl => wp_all_ok (y2b_wp du cap_pos Hd Hs Hw Hl)). Qed.
  Theorem C42_y2b_many d w bss : color d = true -> pvec (yao_shares d) w bss -> Forall (fun bs => length bs <= W)%nat bss ->
    all_ok cap (fun i => y2b_many W du i (w i) (st i))
      (fun r => shares_vec (fun i => fst (r i)) (map bval bss) /\ synced (fun i => snd (r i))).
  Proof. exact (fun Hd Hw Hl => wp_all_ok (y2b_many_wp du cap_pos Hd Hs Hw Hl)). Qed.
  Theorem C42_a2y2b a (x : F) : shares a x ->
    all_ok cap (fun i => a2y2b (Seed := Seed) W du hash gtweak digest dg_eqb draw_label draw_delta i (a i) (st i) (rg i))
      (fun r => shares (fun i => fst (r i)) (to_uint x) /\ synced (fun i => fst (snd (r i)))).
  Proof. exact (fun Ha => wp_all_ok (a2y2b_wp du hash gtweak digest dg_eqb draw_label draw_delta dg_eqb_spec cap_pos p_odd width delta_odd rg Hs Ha)). Qed.
  Theorem C42_a2y2b_many a (xs : list F) : shares_vec a xs ->
    all_ok cap (fun i => a2y2b_many (Seed := Seed) W du hash gtweak digest dg_eqb draw_label draw_delta i (a i) (st i) (rg i))
      (fun r => shares_vec (fun i => fst (r i)) (map to_uint xs) /\ synced (fun i => fst (snd (r i)))).
  Proof. exact (fun Ha => wp_all_ok (a2y2b_many_wp du hash gtweak digest dg_eqb draw_label draw_delta dg_eqb_spec cap_pos p_odd width delta_odd rg Hs Ha)). Qed.
  Theorem C42_a2y2b_streaming a (x : F) : shares a x ->
    all_ok cap (fun i => a2y2b_streaming (Seed := Seed) W du hash gtweak digest dg_eqb draw_label draw_delta i (a i) (st i) (rg i))
      (fun r => shares (fun i => fst (r i)) (to_uint x) /\ synced (fun i => fst (snd (r i)))).
  Proof. exact (fun Ha => wp_all_ok (a2y2b_streaming_wp du hash gtweak digest dg_eqb draw_label draw_delta dg_eqb_spec cap_pos p_odd width delta_odd rg Hs Ha)). Qed.
  (** both conversion types give the same value *)
  Theorem C42_a2b_selector t a (x : F) : shares a x ->
    all_ok cap (fun i => a2b_selector (Seed := Seed) W du hash gtweak digest dg_eqb draw_label draw_delta t i (a i) (st i) (rg i))
      (fun r => shares (fun i => fst (r i)) (to_uint x) /\ synced (fun i => fst (snd (r i)))).
  Proof. exact (fun Ha => wp_all_ok (a2b_selector_wp du hash gtweak digest dg_eqb draw_label draw_delta dg_eqb_spec cap_pos p_odd width delta_odd t rg Hs Ha)). Qed.
  (** also the labels and the generators afterwards *)
  Theorem C43_b2y d delta a u : knows_delta d delta -> shares a u ->
    all_ok cap (fun i => b2y (F := F) (Seed := Seed) hash gtweak draw_label i (a i) (delta i) (st i) (rg i))
      (fun r => yao_shares d (fun i => fst (r i)) (uint_to_bits u (mbs F)) /\ fst (r P1) = b2y_zero (F := F) draw_label rg /\
         forall i, snd (r i) = (garbler_next (Seed := Seed) st i, b2y_rng (F := F) draw_label rg i)).
  Proof. exact (fun Hk Ha => wp_all_ok (b2y_wp hash gtweak draw_label cap_pos rg Hk Hs Ha)). Qed.
  (** [felt p bs]: as many bits as the modulus, value below it *)
  Theorem C43_y2a d delta w bs : color d = true -> knows_delta d delta -> yao_shares d w bs -> felt (fu_p (F := F)) bs -> run_separated hash gtweak otweak draw_label d (y2a_wires (F := F) W draw_label (w P1) rg) (garbler_rng (Seed := Seed) st) ->
    all_ok cap (fun i => y2a (F := F) (Seed := Seed) W hash gtweak otweak digest dg_eqb draw_label i (w i) (delta i) (st i) (rg i))
      (fun r => shares (fun i => fst (r i)) (of_uint (F := F) (bval bs)) /\ synced (fun i => fst (snd (r i)))).
  Proof. exact (fun Hd Hk Hw Hf Hp => wp_all_ok (y2a_wp digest dg_eqb dg_eqb_spec cap_pos p_odd width rg Hd Hk Hs Hw Hf Hp)). Qed.
  Theorem C43_y2a_streaming d delta w bs : color d = true -> knows_delta d delta -> yao_shares d w bs -> felt (fu_p (F := F)) bs -> run_separated hash gtweak otweak draw_label d (y2a_wires (F := F) W draw_label (w P1) rg) (garbler_rng (Seed := Seed) st) ->
    all_ok cap (fun i => y2a_streaming (F := F) (Seed := Seed) W hash gtweak otweak digest dg_eqb draw_label i (w i) (delta i) (st i) (rg i))
      (fun r => shares (fun i => fst (r i)) (of_uint (F := F) (bval bs)) /\ synced (fun i => fst (snd (r i)))).
  Proof. exact (fun Hd Hk Hw Hf Hp => wp_all_ok (y2a_streaming_wp digest dg_eqb dg_eqb_spec cap_pos p_odd width rg Hd Hk Hs Hw Hf Hp)). Qed.
  Theorem C43_b2y2a a u : shares a u -> (u < fu_p (F := F))%N -> b2y2a_sep (F := F) (Seed := Seed) W hash gtweak otweak draw_label draw_delta st rg ->
    all_ok cap (fun i => b2y2a (F := F) (Seed := Seed) W hash gtweak otweak digest dg_eqb draw_label draw_delta i (a i) (st i) (rg i))
      (fun r => shares (fun i => fst (r i)) (of_uint (F := F) u) /\ synced (fun i => fst (snd (r i)))).
  Proof. exact (fun Ha Hu Hp => wp_all_ok (b2y2a_wp digest dg_eqb dg_eqb_spec cap_pos p_odd width delta_odd Hs Ha Hu Hp)). Qed.
  Theorem C43_b2y2a_streaming a u : shares a u -> (u < fu_p (F := F))%N -> b2y2a_sep (F := F) (Seed := Seed) W hash gtweak otweak draw_label draw_delta st rg ->
    all_ok cap (fun i => b2y2a_streaming (F := F) (Seed := Seed) W hash gtweak otweak digest dg_eqb draw_label draw_delta i (a i) (st i) (rg i))
      (fun r => shares (fun i => fst (r i)) (of_uint (F := F) u) /\ synced (fun i => fst (snd (r i)))).
  Proof. exact (fun Ha Hu Hp => wp_all_ok (b2y2a_streaming_wp digest dg_eqb dg_eqb_spec cap_pos p_odd width delta_odd Hs Ha Hu Hp)). Qed.
  Theorem C43_b2a_selector t a u : shares a u -> (u < fu_p (F := F))%N -> (t = Yao -> b2y2a_sep (F := F) (Seed := Seed) W hash gtweak otweak draw_label draw_delta st rg) ->
    all_ok cap (fun i => b2a_selector (F := F) (Seed := Seed) W du hash gtweak otweak digest dg_eqb draw_label draw_delta t i (a i) (st i) (rg i))
      (fun r => shares (fun i => fst (r i)) (of_uint (F := F) u) /\ synced (fun i => fst (snd (r i)))).
  Proof. exact (fun Ha Hu Hp => wp_all_ok (b2a_selector_wp du digest dg_eqb dg_eqb_spec cap_pos p_odd width delta_odd Hs Ha Hu Hp)). Qed.
  (** every shift, including 0 and at least the bit size of the modulus *)
  Theorem C44_int_div_power_2 a (xs : list F) bit : shares_vec a xs -> ((0 < bit < mbs F)%nat -> separated_run (F := F) (Seed := Seed) hash gtweak otweak draw_label draw_delta (C_int_div_power_2 (F := F) W bit) (length xs) (length xs) st rg) ->
    all_ok cap (fun i => field_int_div_power_2_many (F := F) (Seed := Seed) W hash gtweak otweak digest dg_eqb draw_label draw_delta i (a i) (st i) (rg i) bit)
      (fun r => shares_vec (fun i => fst (r i)) (map (fun x => of_uint (to_uint x / 2 ^ N.of_nat bit)%N) xs) /\ synced (fun i => fst (snd (r i)))).
  Proof. exact (fun Ha Hp => wp_all_ok (int_div_power_2_all_wp digest dg_eqb dg_eqb_spec cap_pos p_odd width delta_odd Hs Ha Hp)). Qed.
  Theorem C44_int_div a b (xs ys : list F) : shares_vec a xs -> shares_vec b ys -> length ys = length xs -> Forall (fun y => y <> 0) ys -> separated_run (F := F) (Seed := Seed) hash gtweak otweak draw_label draw_delta (C_int_div (F := F) W) (length (xs ++ ys)) (length xs) st rg ->
    all_ok cap (fun i => field_int_div_many (F := F) (Seed := Seed) W hash gtweak otweak digest dg_eqb draw_label draw_delta i (a i) (b i) (st i) (rg i))
      (fun r => shares_vec (fun i => fst (r i)) (map2 (fun x y => of_uint (to_uint x / to_uint y)%N) xs ys) /\ synced (fun i => fst (snd (r i)))).
  Proof. exact (fun Ha Hb Hl Hn Hp => wp_all_ok (int_div_wp digest dg_eqb dg_eqb_spec cap_pos p_odd width delta_odd Hs Ha Hb Hl Hn Hp)). Qed.
  Theorem C44_int_div_by_public a (xs ds : list F) : shares_vec a xs -> length ds = length xs -> Forall (fun y => y <> 0) ds -> separated_run (F := F) (Seed := Seed) hash gtweak otweak draw_label draw_delta (C_int_div_by_public (F := F) W ds) (length xs) (length xs) st rg ->
    all_ok cap (fun i => field_int_div_by_public_many (F := F) (Seed := Seed) W hash gtweak otweak digest dg_eqb draw_label draw_delta i (a i) ds (st i) (rg i))
      (fun r => shares_vec (fun i => fst (r i)) (map2 (fun x y => of_uint (to_uint x / to_uint y)%N) xs ds) /\ synced (fun i => fst (snd (r i)))).
  Proof. exact (fun Ha Hl Hn Hp => wp_all_ok (int_div_by_public_wp digest dg_eqb dg_eqb_spec cap_pos p_odd width delta_odd Hs Ha Hl Hn Hp)). Qed.
  Theorem C44_int_div_by_shared a (xs ds : list F) : shares_vec a xs -> length ds = length xs -> Forall (fun y => y <> 0) xs -> separated_run (F := F) (Seed := Seed) hash gtweak otweak draw_label draw_delta (C_int_div_by_shared (F := F) W ds) (length xs) (length xs) st rg ->
    all_ok cap (fun i => field_int_div_by_shared_many (F := F) (Seed := Seed) W hash gtweak otweak digest dg_eqb draw_label draw_delta i ds (a i) (st i) (rg i))
      (fun r => shares_vec (fun i => fst (r i)) (map2 (fun x y => of_uint (to_uint y / to_uint x)%N) xs ds) /\ synced (fun i => fst (snd (r i)))).
  Proof. exact (fun Ha Hl Hn Hp => wp_all_ok (int_div_by_shared_wp digest dg_eqb dg_eqb_spec cap_pos p_odd width delta_odd Hs Ha Hl Hn Hp)). Qed.
  (** [slice_of lo mid n x]: bits lo..mid-1 and bits mid..n-1 of [x] *)
  Theorem C44_slice a (xs : list F) lo mid bitsize : shares_vec a xs -> (lo <= mid <= bitsize)%nat -> (bitsize <= mbs F)%nat -> separated_run (F := F) (Seed := Seed) hash gtweak otweak draw_label draw_delta (C_slice (F := F) W lo mid bitsize) (length xs) (2 * length xs) st rg ->
    all_ok cap (fun i => slice_arithmetic_many (F := F) (Seed := Seed) W hash gtweak otweak digest dg_eqb draw_label draw_delta i (a i) (st i) (rg i) lo mid bitsize)
      (fun r => shares_vec (fun i => fst (r i)) (concat (map (slice_of lo mid bitsize) xs)) /\ synced (fun i => fst (snd (r i)))).
  Proof. exact (fun Ha H1 H2 Hp => wp_all_ok (slice_wp digest dg_eqb dg_eqb_spec cap_pos p_odd width delta_odd Hs Ha H1 H2 Hp)). Qed.
  (** [limbs_of dbl total n x]: the [n] limbs of [dbl] bits of [x mod 2^total]; the hypothesis on the number of limbs holds whenever total <= bit size of the modulus *)
  Theorem C44_decompose a (xs : list F) total dbl : shares_vec a xs -> (0 < dbl)%nat -> (0 < total)%nat -> div_ceil (Nat.min total (mbs F)) dbl = div_ceil total dbl -> separated_run (F := F) (Seed := Seed) hash gtweak otweak draw_label draw_delta (C_decompose (F := F) W dbl total) (length xs) (div_ceil total dbl * length xs) st rg ->
    all_ok cap (fun i => decompose_arithmetic_many (F := F) (Seed := Seed) W hash gtweak otweak digest dg_eqb draw_label draw_delta i (a i) (st i) (rg i) total dbl)
      (fun r => shares_vec (fun i => fst (r i)) (concat (map (limbs_of dbl total (div_ceil total dbl)) xs)) /\ synced (fun i => fst (snd (r i)))).
  Proof. exact (fun Ha H1 H2 H3 Hp => wp_all_ok (decompose_wp digest dg_eqb dg_eqb_spec cap_pos p_odd width delta_odd Hs Ha H1 H2 H3 Hp)). Qed.
  (** Without it: the limbs beyond the modulus are not shares of zero but of minus the random masks [ks] *)
  Theorem C44_decompose_surplus a (x : F) total dbl : shares_vec a [x] -> (0 < dbl)%nat -> (0 < total)%nat -> separated_run (F := F) (Seed := Seed) hash gtweak otweak draw_label draw_delta (C_decompose (F := F) W dbl total) (1) (div_ceil total dbl) st rg ->
    all_ok cap (fun i => decompose_arithmetic_many (F := F) (Seed := Seed) W hash gtweak otweak digest dg_eqb draw_label draw_delta i (a i) (st i) (rg i) total dbl)
      (fun r => exists ks : list F, length ks = div_ceil total dbl /\
         let num := div_ceil (Nat.min total (mbs F)) dbl in
         shares_vec (fun i => fst (r i)) (limbs_of dbl total num x ++ map (fun k => - k) (skipn num ks)) /\ synced (fun i => fst (snd (r i)))).
  Proof. exact (fun Ha H1 H2 Hp => wp_all_ok (decompose_surplus_wp digest dg_eqb dg_eqb_spec cap_pos p_odd width delta_odd Hs Ha H1 H2 Hp)). Qed.
  Theorem C44_mod_power_2 a (x : F) bit : shares a x -> (0 < bit)%nat -> separated_run (F := F) (Seed := Seed) hash gtweak otweak draw_label draw_delta (C_decompose (F := F) W bit bit) (1) (1) st rg ->
    all_ok cap (fun i => field_mod_power_2 (F := F) (Seed := Seed) W hash gtweak otweak digest dg_eqb draw_label draw_delta i (a i) (st i) (rg i) bit)
      (fun r => shares (fun i => fst (r i)) (of_uint (to_uint x mod 2 ^ N.of_nat bit)%N) /\ synced (fun i => fst (snd (r i)))).
  Proof. exact (fun Ha H1 Hp => wp_all_ok (mod_power_2_wp digest dg_eqb dg_eqb_spec cap_pos p_odd width delta_odd Hs Ha H1 Hp)). Qed.
End C42.
Print Assumptions C42_a2y.
Print Assumptions C42_a2y_many.
Print Assumptions C42_a2y_streaming.
Print Assumptions C42_y2b.
Print Assumptions C42_y2b_many.
Print Assumptions C42_a2y2b.
Print Assumptions C42_a2y2b_many.
Print Assumptions C42_a2y2b_streaming.
Print Assumptions C42_a2b_selector.
Print Assumptions C43_b2y.
Print Assumptions C43_y2a.
Print Assumptions C43_y2a_streaming.
Print Assumptions C43_b2y2a.
Print Assumptions C43_b2y2a_streaming.
Print Assumptions C43_b2a_selector.
Print Assumptions C44_int_div_power_2.
Print Assumptions C44_int_div.
Print Assumptions C44_int_div_by_public.
Print Assumptions C44_int_div_by_shared.
Print Assumptions C44_slice.
Print Assumptions C44_decompose.
Print Assumptions C44_decompose_surplus.
Print Assumptions C44_mod_power_2.

(** A shift by zero bits: [div_ceil] by zero *)
Section C44p.
  Context {F : Type} `{FU : FieldUint F} {S M : Type} (W : nat) {DF : Draw S F}.
  Context {Seed : Type} {SS : Seeded S Seed} {DS : Draw S Seed} {EN : Enc M (list N)}.
  Context (hash : N -> N -> N) (gtweak : N -> N) (otweak : N -> bool -> N).
  Context {Dg : Type} {ED : Enc M (list Dg)} (digest : list N -> Dg) (dg_eqb : Dg -> Dg -> bool).
  Context (draw_label draw_delta : S -> N * S).
  Theorem C44_mod_power_2_zero i (a : share F) (st : rst S) (rg : S) :
    field_mod_power_2 (F := F) (M := M) (Seed := Seed) W hash gtweak otweak digest dg_eqb draw_label draw_delta i a st rg 0
    = Fail (Panic "attempt to divide by zero").
  Proof. exact eq_refl. Qed.
  (** ** C45: whatever circuit and input labels the evaluator is to use, if garbler P1 sends other
      blocks, with another digest, then P0 fails with this error *)
  Theorem C45_tampered {A} (qe qg : gprog N A) d delta (st : pid -> rst S) (c : list N) (x1 : A * rst S) g (cap : nat) :
    (forall x y, dg_eqb x y = true <-> x = y) -> (1 <= cap)%nat -> knows_delta d delta -> synced st ->
    fst (garble hash gtweak draw_label d qg (new_garbler (garbler_rng (Seed := Seed) st))) = Done g ->
    digest c <> digest (g_blocks (snd (garble hash gtweak draw_label d qg (new_garbler (garbler_rng (Seed := Seed) st))))) ->
    all_end cap (fun i => match i with
        | P0 => convert (M := M) (Seed := Seed) hash gtweak digest dg_eqb draw_label P0 None qe (st P0)
        | P1 => bind (send_many P0 c) (fun _ => Ret x1)
        | P2 => convert (Seed := Seed) hash gtweak digest dg_eqb draw_label P2 (delta P2) qg (st P2) end)
      (fun o => o P0 = Failed (Eyre "Inconsistent Garbled Circuits: Hashes do not match!")).
  Proof. exact (fun E1 E2 E3 E4 E5 E6 => wpo_all_end (tampered_circuit hash gtweak digest dg_eqb draw_label E1 E2 (A := A) qe qg x1 E3 E4 E5 E6)). Qed.
End C44p.
Print Assumptions C44_mod_power_2_zero.
Print Assumptions C45_tampered.

(** ** Examples: the field with 13 elements, 15-bit labels, a toy hash *)
Definition d_t : N := delta_of delta_t st13.
Definition delta13 : pid -> option N := fun i => match i with P0 => None | _ => Some d_t end.
Lemma delta13_knows : knows_delta d_t delta13.
Proof. split; reflexivity. Qed.
Definition zs_t : list N := fst (zero_labels label_t 4 5555555%Z).
Definition sv13 (vs : list Z) : pid -> list (share F13) := fun i => map (fun v => sh13 v 4 7 i) vs.
Lemma sv13_shares vs : shares_vec (sv13 vs) (map f13 vs).
Proof.
  induction vs as [|v vs IH]; [apply pvec_nil; reflexivity|]. eapply pvec_cons; [intros i; reflexivity|exact (sh13_shares v 4 7)|exact IH].
Qed.
Lemma exec_end {M A X} cap n (ps : pid -> prog pid M A) (f : option (pid -> outcome A) -> option X) v :
  f None = None -> f (exec cap n ps) = Some v -> all_end cap ps (fun o => f (Some o) = Some v).
Proof.
  intros N0 E. destruct (exec cap n ps) as [o|] eqn:X0; [|congruence].
  destruct (exec_every _ _ _ X0) as (o1 & m & -> & K). exists o, m. split; [exact E|exact K].
Qed.
Definition opensv {B} (o : option (pid -> outcome (list (share F13) * B))) : option (list Z) :=
  match o with
  | Some o =>
      match o P0, o P1, o P2 with
      | Done a, Done b, Done c =>
          Some (map (fun x => val x) (map2 gadd (map2 gadd (map sa (fst a)) (map sa (fst b))) (map sa (fst c))))
      | _, _, _ => None
      end
  | None => None
  end.
Definition openb {B} (o : option (pid -> outcome (share N * B))) : option N :=
  match o with
  | Some o =>
      match o P0, o P1, o P2 with
      | Done a, Done b, Done c => Some (N.lxor (N.lxor (sa (fst a)) (sa (fst b))) (sa (fst c)))
      | _, _, _ => None
      end
  | None => None
  end.

Example ex_C42_a2y : all_ok 1 (fun i => a2y (F := F13) (M := msg) (Seed := Z) 64 hash_t gtweak_t digest_t eqb_t label_t i (sh13 11 4 7 i) (delta13 i) (st13 i) (rg_t i))
  (fun r => yao_shares d_t (fun i => fst (r i)) [true; true; false; true] /\ synced (fun i => fst (snd (r i)))).
Proof.
  refine (@C42_a2y F13 _ _ Z msg 64 Z _ _ _ hash_t gtweak_t _ _ digest_t eqb_t label_t eqb_t_spec 1 (le_n 1) p13_odd w13y st13 st13_synced rg_t
            d_t delta13 (sh13 11 4 7) (f13 11) (delta_t_odd _) delta13_knows (sh13_shares 11 4 7)).
Qed.
Example ex_C42_y2b : all_ok 1 (fun i => y2b (M := msg) 64 du13 i (ys d_t zs_t [true; true; false; true] i) (st13 i))
  (fun r => shares (fun i => fst (r i)) 11%N /\ synced (fun i => snd (r i))).
Proof.
  refine (@C42_y2b Z msg 64 du13 _ 1 (le_n 1) st13 st13_synced d_t _ [true; true; false; true] (delta_t_odd _) (ys_shares d_t zs_t _ _) _).
  - vm_compute. reflexivity.
  - apply Nat.leb_le. reflexivity.
Qed.
Example ex_C42_a2y2b : all_ok 1 (fun i => a2y2b (F := F13) (M := msg) (Seed := Z) 64 du13 hash_t gtweak_t digest_t eqb_t label_t delta_t i (sh13 11 4 7 i) (st13 i) (rg_t i))
  (fun r => shares (fun i => fst (r i)) 11%N /\ synced (fun i => fst (snd (r i)))).
Proof.
  refine (@C42_a2y2b F13 _ _ Z msg 64 du13 Z _ _ _ hash_t gtweak_t _ _ digest_t eqb_t label_t delta_t eqb_t_spec 1 (le_n 1) p13_odd w13y delta_t_odd
            st13 st13_synced rg_t (sh13 11 4 7) (f13 11) (sh13_shares 11 4 7)).
Qed.
(** the model, executed: ordinary and streaming *)
Example ex_C42_runs :
  openb (exec 1 3000 (fun i => a2y2b (F := F13) (M := msg) (Seed := Z) 64 du13 hash_t gtweak_t digest_t eqb_t label_t delta_t i (sh13 11 4 7 i) (st13 i) (rg_t i))) = Some 11%N /\
  openb (exec 1 3000 (fun i => a2y2b_streaming (F := F13) (M := msg) (Seed := Z) 64 du13 hash_t gtweak_t digest_t eqb_t label_t delta_t i (sh13 11 4 7 i) (st13 i) (rg_t i))) = Some 11%N.
Proof. vm_compute. auto. Qed.

Lemma sep_b2y2a : b2y2a_sep (F := F13) (Seed := Z) 64 hash_t gtweak_t otweak_t label_t delta_t st13 rg_t.
Proof. apply sep_check_ok. vm_compute. reflexivity. Qed.
Example ex_C43_b2y2a : all_ok 1 (fun i => b2y2a (F := F13) (M := msg) (Seed := Z) 64 hash_t gtweak_t otweak_t digest_t eqb_t label_t delta_t i (xs 11 6 9 i) (st13 i) (rg_t i))
  (fun r => shares (fun i => fst (r i)) (f13 11) /\ synced (fun i => fst (snd (r i)))).
Proof.
  refine (@C43_b2y2a F13 _ _ Z msg 64 _ Z _ _ _ hash_t gtweak_t otweak_t _ _ digest_t eqb_t label_t delta_t eqb_t_spec 1 (le_n 1) p13_odd w13y delta_t_odd
            st13 st13_synced rg_t (xs 11 6 9) 11%N (xs_shares 11 6 9) _ sep_b2y2a). reflexivity.
Qed.
Lemma sep_y2a : run_separated hash_t gtweak_t otweak_t label_t d_t (y2a_wires (F := F13) 64 label_t (ys d_t zs_t [false; true; false; true] P1) rg_t) (garbler_rng (Seed := Z) st13).
Proof. apply sep_check_ok. vm_compute. reflexivity. Qed.
Example ex_C43_y2a : all_ok 1 (fun i => y2a_streaming (F := F13) (M := msg) (Seed := Z) 64 hash_t gtweak_t otweak_t digest_t eqb_t label_t i (ys d_t zs_t [false; true; false; true] i) (delta13 i) (st13 i) (rg_t i))
  (fun r => shares (fun i => fst (r i)) (f13 10) /\ synced (fun i => fst (snd (r i)))).
Proof.
  refine (@C43_y2a_streaming F13 _ _ Z msg 64 _ Z _ _ _ hash_t gtweak_t otweak_t _ _ digest_t eqb_t label_t eqb_t_spec 1 (le_n 1) p13_odd w13y
            st13 st13_synced rg_t d_t delta13 _ [false; true; false; true] (delta_t_odd _) delta13_knows (ys_shares d_t zs_t _ _) _ sep_y2a).
  - vm_compute. reflexivity.
  - split; reflexivity.
Qed.

Lemma sep_div : separated_run (F := F13) (Seed := Z) hash_t gtweak_t otweak_t label_t delta_t (C_int_div (F := F13) 64) 4 2 st13 rg_t.
Proof. apply sep_check_ok. vm_compute. reflexivity. Qed.
Example ex_C44_int_div : all_ok 1 (fun i => field_int_div_many (F := F13) (M := msg) (Seed := Z) 64 hash_t gtweak_t otweak_t digest_t eqb_t label_t delta_t i (sv13 [11; 9]%Z i) (sv13 [3; 5]%Z i) (st13 i) (rg_t i))
  (fun r => shares_vec (fun i => fst (r i)) (map f13 [3; 1]%Z) /\ synced (fun i => fst (snd (r i)))).
Proof.
  refine (@C44_int_div F13 _ _ Z msg 64 _ Z _ _ _ hash_t gtweak_t otweak_t _ _ digest_t eqb_t label_t delta_t eqb_t_spec 1 (le_n 1) p13_odd w13y delta_t_odd
            st13 st13_synced rg_t (sv13 [11; 9]%Z) (sv13 [3; 5]%Z) (map f13 [11; 9]%Z) (map f13 [3; 5]%Z) (sv13_shares _) (sv13_shares _) eq_refl _ sep_div).
  repeat constructor; discriminate.
Qed.
Lemma sep_slice : separated_run (F := F13) (Seed := Z) hash_t gtweak_t otweak_t label_t delta_t (C_slice (F := F13) 64 1 3 4) 2 4 st13 rg_t.
Proof. apply sep_check_ok. vm_compute. reflexivity. Qed.
Example ex_C44_slice : all_ok 1 (fun i => slice_arithmetic_many (F := F13) (M := msg) (Seed := Z) 64 hash_t gtweak_t otweak_t digest_t eqb_t label_t delta_t i (sv13 [11; 6]%Z i) (st13 i) (rg_t i) 1 3 4)
  (fun r => shares_vec (fun i => fst (r i)) (map f13 [1; 1; 3; 0]%Z) /\ synced (fun i => fst (snd (r i)))).
Proof.
  refine (@C44_slice F13 _ _ Z msg 64 _ Z _ _ _ hash_t gtweak_t otweak_t _ _ digest_t eqb_t label_t delta_t eqb_t_spec 1 (le_n 1) p13_odd w13y delta_t_odd
            st13 st13_synced rg_t (sv13 [11; 6]%Z) (map f13 [11; 6]%Z) 1 3 4 (sv13_shares _) _ _ sep_slice).
  - split; apply Nat.leb_le; reflexivity.
  - apply Nat.leb_le; reflexivity.
Qed.
Lemma sep_decompose : separated_run (F := F13) (Seed := Z) hash_t gtweak_t otweak_t label_t delta_t (C_decompose (F := F13) 64 2 3) 2 4 st13 rg_t.
Proof. apply sep_check_ok. vm_compute. reflexivity. Qed.
Example ex_C44_decompose : all_ok 1 (fun i => decompose_arithmetic_many (F := F13) (M := msg) (Seed := Z) 64 hash_t gtweak_t otweak_t digest_t eqb_t label_t delta_t i (sv13 [11; 6]%Z i) (st13 i) (rg_t i) 3 2)
  (fun r => shares_vec (fun i => fst (r i)) (map f13 [3; 0; 2; 1]%Z) /\ synced (fun i => fst (snd (r i)))).
Proof.
  refine (@C44_decompose F13 _ _ Z msg 64 _ Z _ _ _ hash_t gtweak_t otweak_t _ _ digest_t eqb_t label_t delta_t eqb_t_spec 1 (le_n 1) p13_odd w13y delta_t_odd
            st13 st13_synced rg_t (sv13 [11; 6]%Z) (map f13 [11; 6]%Z) 3 2 (sv13_shares _) _ _ _ sep_decompose).
  - apply Nat.leb_le; reflexivity.
  - apply Nat.leb_le; reflexivity.
  - reflexivity.
Qed.
Definition run_decompose (total dbl : nat) (vs : list Z) :=
  exec 1 3000 (fun i => decompose_arithmetic_many (F := F13) (M := msg) (Seed := Z) 64 hash_t gtweak_t otweak_t digest_t eqb_t label_t delta_t i (sv13 vs i) (st13 i) (rg_t i) total dbl).
Example ex_C44_runs :
  opensv (run_decompose 4 2 [11; 6]%Z) = Some [3; 2; 2; 1]%Z /\
  opensv (exec 1 3000 (fun i => field_int_div_by_shared_many (F := F13) (M := msg) (Seed := Z) 64 hash_t gtweak_t otweak_t digest_t eqb_t label_t delta_t i (map f13 [11; 6]%Z) (sv13 [5; 2]%Z i) (st13 i) (rg_t i))) = Some [2; 3]%Z /\
  opensv (exec 1 3000 (fun i => field_int_div_by_public_many (F := F13) (M := msg) (Seed := Z) 64 hash_t gtweak_t otweak_t digest_t eqb_t label_t delta_t i (sv13 [5; 12]%Z i) (map f13 [2; 3]%Z) (st13 i) (rg_t i))) = Some [2; 4]%Z /\
  opensv (exec 1 3000 (fun i => field_int_div_power_2_many (F := F13) (M := msg) (Seed := Z) 64 hash_t gtweak_t otweak_t digest_t eqb_t label_t delta_t i (sv13 [5; 12]%Z i) (st13 i) (rg_t i) 1)) = Some [2; 6]%Z.
Proof. vm_compute. auto. Qed.
(** The limbs of 11 in pieces of 2 bits are 3, 2, 0, 0.  Asked for 8 bits of 11 and 6, the
    functions of yao.rs return 3, 2 and then garbage: also the limbs 2, 1 of 6 are lost. *)
Theorem C44_decompose_refuted : exists (a : pid -> list (share F13)) (xs : list F13) (out : list Z), shares_vec a xs /\
  all_end 1 (fun i => decompose_arithmetic_many (F := F13) (M := msg) (Seed := Z) 64 hash_t gtweak_t otweak_t digest_t eqb_t label_t delta_t i (a i) (st13 i) (rg_t i) 8 2)
    (fun o => opensv (Some o) = Some out) /\
  concat (map (limbs_of 2 8 4) xs) = map f13 [3; 2; 0; 0; 2; 1; 0; 0]%Z /\ out = [3; 2; 0; 10; 3; 7; 9; 5]%Z.
Proof.
  exists (sv13 [11; 6]%Z), (map f13 [11; 6]%Z), [3; 2; 0; 10; 3; 7; 9; 5]%Z.
  split; [apply sv13_shares|]. split; [apply (exec_end 1 3000 _ opensv); [reflexivity|vm_compute; reflexivity]|].
  split; [vm_compute; reflexivity|reflexivity].
Qed.
Print Assumptions C44_decompose_refuted.

(** C45: an AND gate; P1 sends one block with a flipped bit *)
Definition and_t (w : list N) : gprog N (list N) :=
  match w with a :: b :: _ => GAnd a b (fun c => GRet [c]) | _ => GRet [] end.
Definition blocks_t : list N := g_blocks (snd (garble hash_t gtweak_t label_t d_t (and_t zs_t) (new_garbler (garbler_rng (Seed := Z) st13)))).
Example ex_C45 : exists c : list N, length c = length blocks_t /\ c <> [] /\
  all_end 1 (fun i => match i with
      | P0 => convert (M := msg) (Seed := Z) hash_t gtweak_t digest_t eqb_t label_t P0 None (and_t zs_t) (st13 P0)
      | P1 => bind (send_many P0 c) (fun _ => Ret ([], st13 P1))
      | P2 => convert (Seed := Z) hash_t gtweak_t digest_t eqb_t label_t P2 (delta13 P2) (and_t zs_t) (st13 P2) end)
    (fun o => o P0 = Failed (Eyre "Inconsistent Garbled Circuits: Hashes do not match!")).
Proof.
  exists (match blocks_t with b :: l => N.lxor b 1 :: l | [] => [] end).
  split; [vm_compute; reflexivity|]. split; [vm_compute; discriminate|].
  refine (@C45_tampered Z msg Z _ _ _ hash_t gtweak_t _ _ digest_t eqb_t label_t (list N) (and_t zs_t) (and_t zs_t) d_t delta13 st13 _ ([], st13 P1)
            _ 1 eqb_t_spec (le_n 1) delta13_knows st13_synced eq_refl _).
  vm_compute. discriminate.
Qed.
