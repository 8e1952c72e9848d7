(** * The whole prover of UltraHonk, from the circuit to the verifier (C78, C79); no code of /repo is modelled here *)
From Coq Require Import String List Arith Lia Bool Permutation.
From Verif Require Import Proc Alg NNet Rep3 ShamirPoly Shamir ShamirAlg Univariate Sumcheck SumcheckSpec SumcheckSound HonkRelations HonkProofs HonkSkip Shplemini ShpleminiFold ShpleminiPoly ShpleminiQuot ShpleminiVerify ShpleminiSound HonkRows Decider DeciderProofs Oink OinkWiring OinkTrace OinkGrand OinkProofs OinkRelations OinkComplete.
From Verif Require Groth16Complete.
Import ListNotations.
Set Implicit Arguments.
Local Open Scope grp_scope.
Local Open Scope list_scope.

Section Honest.
  Context {F : Type} {FF : Fld F}.
  Infix "*" := rmul : grp_scope.
  Notation "1" := rone : grp_scope.

  (** ** An honest circuit and its witness *)
  (** [fs]: the columns before the Oink prover; [w4]: the fourth wire with the memory records; [2 ^ m]: the size *)
  Record honest (P : rparams (F := F)) (sep m : nat) (reads writes : list nat) (nv : nat) (real tags tau : nat -> nat) (blocks : list (list (list nat)))
      (num_public : nat) (vals : nat -> F) (loc : nat -> nat) (fs : list (list F)) (w4 : list F) : Prop := {
    ho_columns : length fs = 36 /\ 1 <= length (concat blocks) < 2 ^ m /\ num_public <= length (concat blocks);
    ho_w4 : compute_w4 fs reads writes (rp_eta1 P) (rp_eta1 P * rp_eta1 P) (rp_eta1 P * rp_eta1 P * rp_eta1 P) = Done w4;
    ho_first : forall i, i < 2 ^ m -> cell fs 26 i = if (i =? 0)%nat then 1 else 0;
    ho_last : forall i, i < 2 ^ m -> cell fs 27 i = if (i =? length (concat blocks))%nat then 1 else 0;
    ho_wired : wired sep (2 ^ m) nv real tags tau blocks num_public fs;
    ho_copies : copies_ok nv real tags tau blocks num_public vals (set_at 31 w4 fs);
    ho_lookups : lookups_ok P (2 ^ m) loc (set_at 31 w4 fs);
    ho_gates : forall f, In f (gate_relations P) -> forall i, i < 2 ^ m -> f (row (all_entities (set_at 31 w4 fs)) i) = 0;
    ho_denominators : forall i, 1 <= i < length (concat blocks) -> gp_denominator (set_at 31 w4 fs) (rp_beta P) (rp_gamma P) i <> 0;
    ho_delta : compute_public_input_delta sep (rp_beta P) (rp_gamma P) (map (fun j => cell fs 29 (S j)) (seq 0 num_public)) 1 = Done (rp_delta P) }.

  Theorem oink_honest P sep m reads writes nv real tags tau blocks num_public vals loc fs w4 : honest P sep m reads writes nv real tags tau blocks num_public vals loc fs w4 ->
    exists z, let fs3 := set_at 32 z (set_at 33 (compute_logderivative_inverses (set_at 31 w4 fs) (2 ^ m) (rp_beta P) (rp_gamma P)) (set_at 31 w4 fs)) in
    oink sep fs (2 ^ m) reads writes (map (fun j => cell fs 29 (S j)) (seq 0 num_public)) 1 (final_active_row 1 blocks) (active_ranges 1 blocks) (active_idxs (active_ranges 1 blocks))
      (rp_eta1 P) (rp_beta P) (rp_gamma P) = Done (fs3, rp_delta P) /\
    length z = 2 ^ m /\ nth 0 z 0 = 0 /\ satisfied (honk_relations_full P) m (all_entities fs3).
  Proof.
    intros [(A & [B1 B2] & C) D E G H I J K L M]. apply (@oink_satisfied F FF P sep fs m reads writes w4 nv real tags tau blocks num_public vals loc); try assumption. repeat split; assumption.
  Qed.
End Honest.

Section Whole.
  Context {F : Type} {FF : Fld F} {G : Type} {GG : AbGrp G} {MG : Mod F G} {H : Type} {GH : AbGrp H} {MH : Mod F H} {GT : Type} {GGT : AbGrp GT} {MGT : Mod F GT}.
  Lemma set_forall (Q : list F -> Prop) k x : forall l, Q x -> Forall Q l -> Forall Q (set_at k x l).
  Proof.
    intros l Qx. revert k. induction l as [|a l IH]; intros k Fl; [destruct k; constructor|]. apply Forall_cons_iff in Fl. destruct Fl as [Qa Fl].
    destruct k; cbn [set_at]; constructor; auto.
  Qed.
  (** [oink] and then [decider_prove] with any challenges; the verifier has the commitments to the columns *)
  Theorem honest_accepted (e : G -> H -> GT) (srs_tau : F) (gen : G) (h : H) (P : rparams (F := F)) : wide (F := F) 8 -> Groth16Complete.pairing e ->
    forall N chal v betas alphas rho r nu zc sep m reads writes nv real tags tau blocks num_public vals loc fs w4,
    honest P sep m reads writes nv real tags tau blocks num_public vals loc fs w4 ->
    length alphas = 27 -> 2 <= m -> m <= v -> v <= length betas -> 2 ^ m <= N ->
    Forall (fun col => length col = 2 ^ m) fs -> length w4 = 2 ^ m -> (forall k, k < 4 -> cell (set_at 31 w4 fs) (28 + k) 0 = 0) ->
    exists fs3,
      oink sep fs (2 ^ m) reads writes (map (fun j => cell fs 29 (S j)) (seq 0 num_public)) 1 (final_active_row 1 blocks) (active_ranges 1 blocks) (active_idxs (active_ranges 1 blocks))
        (rp_eta1 P) (rp_beta P) (rp_gamma P) = Done (fs3, rp_delta P) /\
      forall fcoms, omapM (commit (srs srs_tau gen N)) fs3 = Done fcoms ->
      exists sent evals us,
        sumcheck_prove (honk_relations_full P) 7 8 chal m v betas alphas (all_entities fs3) = Done (sent, evals, us) /\ length us = v /\
        (Forall (fun u => forall i, 1 <= i < 8 -> u <> fnat i) us -> r <> gzero -> dens_ok us r -> Forall (fun p => zc <> p /\ zc <> gneg p) (sq r v) ->
         exists pr, decider_prove (honk_relations_full P) 7 8 chal (srs srs_tau gen N) m v betas alphas fs3 rho r nu zc = Done (sent, evals, pr) /\
           decider_verify (honk_relations P) 8 chal e gen (smul srs_tau h) h v betas alphas fcoms sent evals rho r nu zc pr = Done (Some gzero)).
  Proof.
    intros W PE N chal v betas alphas rho r nu zc sep m reads writes nv real tags tau blocks num_public vals loc fs w4 HO La M2 Mv Lb LN LC Lw Z.
    destruct (oink_honest HO) as (z & E & Lz & Z0 & S). cbv zeta in E, S. eexists. split; [exact E|]. intros fcoms Ec.
    destruct HO as [(L36 & _) _ _ _ _ _ _ _ _ _].
    apply (@decider_complete F FF G GG MG H GH MH GT GGT MGT e srs_tau gen h P W PE N chal m v betas alphas); try assumption.
    - rewrite !set_length. exact L36.
    - apply set_forall; [exact Lz|]. apply set_forall; [unfold compute_logderivative_inverses; rewrite map_length, seq_length; reflexivity|]. apply set_forall; [exact Lw|exact LC].
    - set (fs3 := set_at 32 z _) in *. assert (L3 : length fs3 = 36) by (unfold fs3; rewrite !set_length; exact L36).
      assert (CZ : forall k, k < 5 -> nth 0 (nth (28 + k) fs3 []) 0 = 0).
      { intros k Hk. change (cell fs3 (28 + k) 0 = 0). unfold fs3. destruct (Nat.eq_dec k 4) as [->|N4].
        - rewrite cell_same; [exact Z0|]. rewrite !set_length. lia.
        - rewrite !cell_other by lia. destruct (Nat.eq_dec k 3) as [->|N3]; [apply (Z 3); lia|]. specialize (Z k ltac:(lia)). rewrite cell_other in Z by lia. rewrite cell_other by lia. exact Z. }
      assert (T : to_be_shifted fs3 = map (fun k => nth (28 + k) fs3 []) (seq 0 5)).
      { clearbody fs3. unfold to_be_shifted. do 36 (destruct fs3 as [|? fs3]; [discriminate L3|]). reflexivity. }
      rewrite T. apply Forall_forall. intros col I. apply in_map_iff in I. destruct I as (k & <- & I). apply in_seq in I. apply CZ. lia.
  Qed.
End Whole.
