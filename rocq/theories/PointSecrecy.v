(** * What a party sees when a point share is turned into coordinate shares

    rep3/conversion.rs:842-1000. One conversion masks the coordinates with fresh elements; the batch
    version masks every element of the batch with the same two elements. *)
From Coq Require Import String List Arith NArith Lia Bool.
From Verif Require Import Proc Alg Rep3Net Rep3 Rep3Spec Rep3Proofs Rep3Wp Uint Conv Secrecy Point.
Import ListNotations.
Set Implicit Arguments.
Local Open Scope grp_scope.

Section PointSecrecy.
  Context {F : Type} `{FU : FieldUint F} {C : Type} {AC : AbGrp C} {CV : Curve F C}.
  Context {M : Type} {EF : Enc M (list F)} (cap : nat) (cap_pos : (1 <= cap)%nat).
  Notation St := (rst (tape F)).
  Implicit Types (st : pid -> St).

  (** the two masks of one party *)
  Definition mx (s : St) : F := fst (masking s).
  Definition my (s : St) : F := fst (masking (snd (masking s))).
  Definition m_end (s : St) : St := snd (masking (snd (masking s))).
  Definition a01 st (x : pid -> share C) (j : pid) : F * F := pre_x01 j (x j) (mx (st j), my (st j)).

  Lemma pre_runs st (x : pid -> share C) : (forall j, share_nonzero (x j) = true) ->
    runs all3 cap (fun j => spy (pre (M := M) j (st j) (x j)))
      (fun j => Done ((mkShare (fst (a01 st x j)) (fst (a01 st x (prev j))), mkShare (snd (a01 st x j)) (snd (a01 st x (prev j))),
                       pre_x2 j (x j), m_end (st j)),
                      [enc [fst (a01 st x (prev j)); snd (a01 st x (prev j))]])).
  Proof.
    intros Hn.
    refine (@runs_out_ext _ _ _ _ _ _ _ (@runs_ext _ _ _ _ _ _ _ _ _ (@runs_spy_exchange M cap cap_pos _ (fun j => enc [fst (a01 st x j); snd (a01 st x j)])
        (fun j msg => bind (match dec msg with Some l => Ret l | None => Fail (Eyre "deserialize") end)
           (fun b => match b with
             | [bx; by_] => Ret ((mkShare (fst (a01 st x j)) bx, mkShare (snd (a01 st x j)) by_, pre_x2 j (x j)), m_end (st j))
             | _ => Fail (Eyre "Expected 2 elements")
             end))
        (fun j => ((mkShare (fst (a01 st x j)) (fst (a01 st x (prev j))), mkShare (snd (a01 st x j)) (snd (a01 st x (prev j))),
                       pre_x2 j (x j), m_end (st j)), [])) _))); [reflexivity| |].
    - intros j. symmetry. unfold pre. rewrite Hn. reflexivity.
    - eapply runs_ext; [|exact (runs_ret all3 cap (fun j => Done _))]. intros j. cbv beta. rewrite dec_enc. reflexivity.
  Qed.

  (** One conversion: every value of the received message occurs for exactly one value of the two
      elements that party [i] does not know. *)
  Theorem pre_message i st (x : pid -> share C) (cx cy : F) : (forall j, share_nonzero (x j) = true) ->
    exists! u : tape F, length u = 2%nat /\
      exists out, sees cap i (fun j => pre (M := M) j (joint i u st j) (x j)) (out, [enc [cx; cy]]).
  Proof.
    intros Hn.
    assert (Ea : exists dx dy, forall u, a01 (joint i u st) x (prev i) = (dx + (hd 0 (rng2 (st i)) - hd 0 u), dy + (hd 0 (tl (rng2 (st i))) - hd 0 (tl u)))).
    { destruct (prev i) eqn:E.
      - exists 0, 0. intros u. unfold a01, mx, my. rewrite <- E, joint_prev, E. cbn [pre_x01]. f_equal; cbn; grp.
      - exists (fst (coords (sa (x P1) + sb (x P1)))), (snd (coords (sa (x P1) + sb (x P1)))). intros u.
        unfold a01, mx, my. rewrite <- E, joint_prev, E. cbn [pre_x01]. reflexivity.
      - exists 0, 0. intros u. unfold a01, mx, my. rewrite <- E, joint_prev, E. cbn [pre_x01]. f_equal; cbn; grp. }
    destruct Ea as (dx & dy & Ea).
    exists [dx + hd 0 (rng2 (st i)) - cx; dy + hd 0 (tl (rng2 (st i))) - cy]. split.
    - split; [reflexivity|]. eexists.
      set (u := [_; _]).
      replace [enc [cx; cy]] with [enc (M := M) [fst (a01 (joint i u st) x (prev i)); snd (a01 (joint i u st) x (prev i))]].
      + apply (runs_sees i _ _ (@pre_runs (joint i u st) x Hn)).
      + rewrite Ea. subst u. cbn [fst snd hd tl]. repeat f_equal; grp.
    - intros u (El & out & Hs). apply (@runs_sees_eq _ _ i _ _ _ _ (@pre_runs (joint i u st) x Hn)) in Hs.
      apply (f_equal snd) in Hs. cbn [snd] in Hs. injection Hs as Hs. apply (f_equal (dec (X := list F))) in Hs.
      rewrite !dec_enc, Ea in Hs. injection Hs as <- <-.
      destruct u as [|ux [|uy [|? ?]]]; try discriminate El. cbn [fst snd hd tl]. f_equal; [grp|f_equal; grp].
  Qed.

  (** ** The batch version *)
  Definition am st (x : pid -> list (share C)) (j : pid) : list (F * F) :=
    map2 (pre_x01 j) (x j) (map2 pair (repeat (mx (st j)) (length (x j))) (repeat (my (st j)) (length (x j)))).
  Lemma am_map st x j : am st x j = map (fun s => pre_x01 j s (mx (st j), my (st j))) (x j).
  Proof. unfold am. induction (x j) as [|s l IH]; [reflexivity|]. cbn [length repeat map2 map]. rewrite IH. reflexivity. Qed.
  Definition sent st x j : list F := map fst (am st x j) ++ map snd (am st x j).
  Lemma sent_length st x j : length (sent st x j) = (2 * length (x j))%nat.
  Proof. unfold sent. rewrite app_length, !map_length, am_map, map_length. lia. Qed.
  Definition out_many st (x : pid -> list (share C)) (j : pid) :=
    (map2 mkShare (map fst (am st x j)) (firstn (length (x j)) (sent st x (prev j))),
     map2 mkShare (map snd (am st x j)) (skipn (length (x j)) (sent st x (prev j))),
     (map (fun x => fst (pre_x2 j x)) (x j), map (fun x => snd (pre_x2 j x)) (x j)), m_end (st j)).
  Lemma pre_many_runs st (x : pid -> list (share C)) n : (forall j, length (x j) = n) -> (forall j, forallb share_nonzero (x j) = true) ->
    runs all3 cap (fun j => spy (pre_many (M := M) j (st j) (x j)))
      (fun j => Done (out_many st x j, [enc (sent st x (prev j))])).
  Proof.
    intros El Hn.
    refine (@runs_out_ext _ _ _ _ _ _ _ (@runs_ext _ _ _ _ _ _ _ _ _ (@runs_spy_exchange M cap cap_pos _ (fun j => enc (sent st x j))
        (fun j msg => bind (match dec msg with Some l => Ret l | None => Fail (Eyre "deserialize") end)
           (fun b => if (length b =? 2 * length (x j))%nat then
                Ret ((map2 mkShare (map fst (am st x j)) (firstn (length (x j)) b), map2 mkShare (map snd (am st x j)) (skipn (length (x j)) b),
                     (map (fun x => fst (pre_x2 j x)) (x j), map (fun x => snd (pre_x2 j x)) (x j))), m_end (st j))
              else Fail (Eyre "Expected 2*{input_len} elements")))
        (fun j => (out_many st x j, [])) _))); [reflexivity| |].
    - intros j. symmetry. unfold pre_many. rewrite Hn. reflexivity.
    - eapply runs_ext; [|exact (runs_ret all3 cap (fun j => Done _))]. intros j. cbv beta. rewrite dec_enc.
      cbn [bind]. rewrite sent_length, !El, Nat.eqb_refl. unfold out_many. rewrite El. reflexivity.
  Qed.

  (** Whatever the randomness of all parties, party 2 receives the coordinates of the partial sums of
      all elements shifted by one common pair. *)
  Theorem pre_many_leak st (x : pid -> list (share C)) n : (forall j, length (x j) = n) -> (forall j, forallb share_nonzero (x j) = true) ->
    exists rx ry out, sees cap P2 (fun j => pre_many (M := M) j (st j) (x j))
      (out, [enc (map (fun s => fst (coords (sa s + sb s)) + rx) (x P1) ++ map (fun s => snd (coords (sa s + sb s)) + ry) (x P1))]).
  Proof.
    intros El Hn. exists (mx (st P1)), (my (st P1)), (out_many st x P2).
    pose proof (runs_sees P2 _ _ (@pre_many_runs st x n El Hn)) as Hs. cbn [prev] in Hs.
    unfold sent in Hs. rewrite am_map, !map_map in Hs. exact Hs.
  Qed.
  (** Two inputs whose partial sums differ by different amounts never give party 2 the same view. *)
  Theorem pre_many_differ st st' (x x' : pid -> list (share C)) n :
    (forall j, length (x j) = n) -> (forall j, forallb share_nonzero (x j) = true) ->
    (forall j, length (x' j) = n) -> (forall j, forallb share_nonzero (x' j) = true) ->
    forall a b, (a < n)%nat -> (b < n)%nat ->
    let h y k := fst (coords (sa (nth k (y P1) zero_share) + sb (nth k (y P1) zero_share))) : F in
    h x a - h x b <> h x' a - h x' b ->
    forall v, sees cap P2 (fun j => pre_many (M := M) j (st j) (x j)) v ->
    ~ sees cap P2 (fun j => pre_many (M := M) j (st' j) (x' j)) v.
  Proof.
    intros El Hn El' Hn' a b Ha Hb h Hd v Hs Hs'.
    apply (@runs_sees_eq _ _ P2 _ _ _ _ (@pre_many_runs st x n El Hn)) in Hs.
    apply (@runs_sees_eq _ _ P2 _ _ _ _ (@pre_many_runs st' x' n El' Hn')) in Hs'.
    rewrite <- Hs in Hs'. apply (f_equal snd) in Hs'. cbn [snd prev] in Hs'. injection Hs' as Hm.
    apply (f_equal (dec (X := list F))) in Hm. rewrite !dec_enc in Hm. injection Hm as Hm.
    unfold sent in Hm. rewrite !am_map, !map_map in Hm.
    assert (X : forall st x k, (forall j, length (x j) = n) -> (k < n)%nat ->
      nth k (map (fun s => fst (pre_x01 P1 s (mx (st P1), my (st P1)))) (x P1) ++ map (fun s => snd (pre_x01 P1 s (mx (st P1), my (st P1)))) (x P1)) 0
        = h x k + mx (st P1)).
    { clear. intros st x k El Hk. rewrite app_nth1 by (rewrite map_length, El; exact Hk).
      set (f := fun s => fst (pre_x01 P1 s (mx (st P1), my (st P1)))).
      rewrite (nth_indep _ 0 (f zero_share)) by (rewrite map_length, El; exact Hk).
      rewrite map_nth. reflexivity. }
    apply (f_equal (fun l => nth a l 0)) in Hm as Xa. apply (f_equal (fun l => nth b l 0)) in Hm as Xb.
    cbv beta in Xa, Xb. rewrite !X in Xa, Xb by assumption.
    apply Hd.
    replace (h x a - h x b) with ((h x a + mx (st P1)) - (h x b + mx (st P1))) by grp.
    replace (h x' a - h x' b) with ((h x' a + mx (st' P1)) - (h x' b + mx (st' P1))) by grp.
    rewrite Xa, Xb. reflexivity.
  Qed.
End PointSecrecy.
