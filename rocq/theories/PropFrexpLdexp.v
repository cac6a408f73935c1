(** C70: ldexp undoes frexp. *)
From Coq Require Import ZifyBool ZifyNat Reals Lra.
From Flocq Require Import Core IEEE754.BinarySingleNaN IEEE754.Binary.
From Verif Require Import Base Cxx Spec X86Vec X86 X86Lemmas X86Proofs X86Masks X86Ops X86Shift Fp FpLemmas FpOps FKern FMath FMathProofs FLane FFields FScalbn FFrexp FModf FManip FManipLanes FRoute FRouteProofs PropX86 PropFloat PropManip.
Set Implicit Arguments.
Local Notation bp := (bpow radix2).

(** frexp(x) splits x into fractions and exponents, ldexp puts them together again: both calls are defined, and P holds between each element of x and of the result *)
Definition split_join (X J : xty) (nn : nans) (x d : list vec) (P : Z -> Z -> Prop) : Prop :=
  exists y e z, x_frexp X J (ieee nn) x d = Ok (y, e) /\ x_scalbn_v X J (ieee nn) y e = Ok z /\ shaped X z /\
    forall i xi, nth_error (elems X x) i = Some xi -> exists zi, nth_error (elems X z) i = Some zi /\ P xi zi.

Lemma small_val f x : word (fw f) x -> isfin f x = true -> val f x <> 0%R -> (bp (emin f) <= Rabs (val f x) < bp (emax f))%R.
Proof.
  intros Wx Fx Nz. split; [|apply val_lt_emax]. rewrite (abs_val f Wx Fx). assert (M1 : mval f 1 = bp (emin f)) by (destruct f; unfold mval; cbn -[bpow]; ring).
  rewrite <- M1. pose proof (fin_word f Wx). assert (fmag (fw f) x <> 0%Z). { intros E. apply Nz. now apply (val_zero f Wx Fx). } apply mval_le; lia.
Qed.
Lemma special_exp nn f x : word (fw f) x -> isfin f x = false -> (0 <= sgn 32 (lo32 (snd (frexpW nn (f := f) x))) < 2 ^ 31 - 2 ^ 11)%Z.
Proof.
  intros Hx Inf. unfold frexpW. cbv zeta. rewrite (land_exp Hx). rewrite (isfin_spec Hx), (fin_fields Hx) in Inf. pose proof (mexp_range (f := f) x) as Re. assert (E : mexp f (fmag (fw f) x) = (2 ^ eb f - 1)%Z) by lia. rewrite E. clear.
  replace (2 ^ mw f * (2 ^ eb f - 1) =? (2 ^ eb f - 1) * 2 ^ mw f)%Z with true by lia. rewrite orb_true_r. cbn [snd]. destruct f; vm_compute; split; congruence.
Qed.

Theorem C70_frexp_ldexp_partial : forall nn X J x d, xty_ok X -> xty_ok J -> is_int (xT X) = false -> int_vec_of X J -> shaped X x -> shaped J d -> esz (xT X) = 4%nat \/ is256 X = false ->
  split_join X J nn x d (fun x z =>
    (isnanb (xf X) x = true -> isnanb (xf X) z = true) /\
    (isnanb (xf X) x = false -> isfin (xf X) x = false \/ val (xf X) x = 0%R \/ isnormb (xf X) x = true -> z = x) /\
    (isfin (xf X) x = true -> val (xf X) x <> 0%R -> isnormb (xf X) x = false -> z <> x)).
Proof.
  intros nn X J x d HX HJ HF HS Hx Hd H4. set (f := xf X). destruct (x_frexp_ok HX HF nn HJ HS Hx Hd) as (e & Er & Sy & Se & Ee). set (y := map _ x) in *.
  destruct (C31_ldexp_vector_partial nn HX HJ HF HS Sy Se H4) as (z & Ez & Sz & R). exists y, e, z. split; auto. split; auto. split; auto. intros i xi Hi.
  assert (Hyi : nth_error (elems X y) i = Some (fst (frexp1 X nn xi))) by (unfold y; rewrite elems_map; exact (map_nth_error _ _ _ Hi)).
  assert (Hei : nth_error (elems J e) i = Some (lo32 (snd (frexp1 X nn xi)))) by (rewrite Ee; exact (map_nth_error _ _ _ Hi)).
  pose proof (el_word _ Hx Hi) as Wx. pose proof (frexp_elem nn HX HF Wx) as E. cbv zeta in E. fold f in E. rewrite (xw_fw HX HF) in Wx. fold f in Wx.
  pose proof (el_word _ Sy Hyi) as Wy. rewrite (xw_fw HX HF) in Wy. fold f in Wy.
  assert (SP : isfin f xi = false -> (0 <= sgn 32 (lo32 (snd (frexp1 X nn xi))) < 2 ^ 31 - 2 ^ 11)%Z). { intros Inf. rewrite (@frexp1_W X nn xi HX HF). now apply special_exp. }
  set (m := fst (frexp1 X nn xi)) in *. set (n := sgn 32 (lo32 (snd (frexp1 X nn xi)))) in *.
  assert (B : (-5000 <= n < 2 ^ 31 - 2 ^ 11)%Z /\ (isfin f xi = true -> n < 5000)%Z).
  { destruct (isfin f xi) eqn:Fx; [|specialize (SP eq_refl); split; [lia|discriminate]]. destruct (Req_bool_spec (val f xi) 0) as [Z0|NZ]; [destruct E as [_ ->]; lia|].
    destruct E as (_ & _ & Rm & V). pose proof (small_val f Wx Fx NZ) as [L U]. rewrite V, Rabs_mult, (Rabs_pos_eq (bp _)) in L, U by apply bpow_ge_0. set (q := (n + frexp_slack f xi)%Z) in *. pose proof (bpow_gt_0 radix2 q) as Pq.
    assert (L1 : (emin f < q)%Z) by (apply (lt_bpow radix2); nra). assert (U1 : (q < emax f + 1)%Z). { apply (lt_bpow radix2). rewrite bpow_plus. change (bp 1) with 2%R. nra. }
    assert (0 <= frexp_slack f xi <= 9)%Z by (unfold frexp_slack; destruct (_ && _), f; lia). assert (-1100 < emin f)%Z by (clear; destruct f; cbn; lia). assert (emax f <= 1024)%Z by (clear; destruct f; cbn; lia). unfold q in *. clear -L1 U1 H H0 H1. lia. }
  assert (CN : ldexp_count X n). { unfold ldexp_count. cbv zeta. fold f. assert (2 ^ eb f <= 2 ^ 11)%Z by (clear; destruct f; cbn; lia). destruct (_ && _); lia. }
  destruct (R i m _ Hyi Hei CN) as (zi & Hzi & LD). fold f n in LD. exists zi. split; auto.
  pose proof (el_word _ Sz Hzi) as Wz. rewrite (xw_fw HX HF) in Wz. fold f in Wz. unfold ldexp_ok in LD.
  destruct (isfin f xi) eqn:Fx.
  - assert (NN : isnanb f xi = false) by (now apply fin_nan). split; [congruence|]. destruct (Req_bool_spec (val f xi) 0) as [Z0|NZ].
    + destruct E as [Em _]. rewrite Em, Fx, Req_bool_true in LD by auto. split; [auto|intros; congruence].
    + destruct E as (Fm & Sm & Rm & V). rewrite Fm in LD. assert (NM : val f m <> 0%R) by (intros Q; rewrite Q, Rabs_R0 in Rm; lra). rewrite Req_bool_false in LD by auto. cbv zeta in LD. split.
      * intros _ [C|[C|C]]; try congruence. unfold frexp_slack in V. rewrite Fx, C in V. cbn [negb andb] in V. rewrite Z.add_0_r in V. rewrite <- V in LD. rewrite (@rnd_id f _ (@fmt_val f xi)), Rlt_bool_true in LD by apply val_lt_emax.
        destruct LD as (Fz & Vz & Sz'). apply (@bits_inj f); auto. congruence.
      * intros _ _ C Q. unfold frexp_slack in V. rewrite Fx, C in V. cbn [negb andb] in V. set (s := match f with F32 => 6 | F64 => 9 end%Z) in *. subst zi.
        assert (Hs : (bp n = bp (n + s) * bp (- s))%R) by (rewrite <- bpow_plus; f_equal; clear; lia). rewrite Hs, <- Rmult_assoc, <- V in LD.
        assert (S64 : (0 < bp (- s) <= / 64)%R). { split; [apply bpow_gt_0|]. change (/ 64)%R with (bp (-6)). apply bpow_le. unfold s. clear. destruct f; lia. }
        set (v := val f xi) in *. set (t := (v * bp (- s))%R) in *. assert (AV : (0 < Rabs v)%R) by (now apply Rabs_pos_lt).
        assert (T : (Rabs (rnd f t) <= 2 * Rabs t)%R). { pose proof (round_N_pt radix2 (SpecFloat.fexp (prec f) (emax f)) (fun x => negb (Z.even x)) t) as [_ N]. specialize (N 0%R (generic_format_0 _ _)). fold (rnd f t) in N. replace (0 - t)%R with (- t)%R in N by ring. rewrite Rabs_Ropp in N. replace (rnd f t) with ((rnd f t - t) + t)%R by ring. eapply Rle_trans; [apply Rabs_triang|]. unfold rnd in *. lra. }
        assert (T2 : (2 * Rabs t < Rabs v)%R). { unfold t. rewrite Rabs_mult, (Rabs_pos_eq (bp _)) by apply bpow_ge_0. nra. }
        pose proof (@val_lt_emax f xi) as LE. fold v in LE. rewrite Rlt_bool_true in LD by lra. destruct LD as (_ & Vz & _). fold v in Vz. rewrite <- Vz in T. lra.
  - subst m. rewrite E, Fx in LD. split; [|split; [|congruence]].
    + intros N. rewrite N in LD. exact LD.
    + intros N _. rewrite N in LD. exact LD.
Qed.
Print Assumptions C70_frexp_ldexp_partial.
Example C70_case : xty_ok f32x5 /\   (* pi, -10, 0, inf, 2^-127: the last comes back as 2^-133 *)
  bind (x_frexp f32x5 i32x5 (ieee nans0) [[0x40490fdb; 0xc1200000; 0; 0x7f800000]; [0x00400000; 0; 0; 0]]%Z [[0; 0; 0; 0]; [0; 0; 0; 0]]%Z) (fun r => x_scalbn_v f32x5 i32x5 (ieee nans0) (fst r) (snd r)) =
  Ok [[0x40490fdb; 0xc1200000; 0; 0x7f800000]; [0x00010000; 0; 0; 0]]%Z.
Proof. split; [xok|vm_compute; reflexivity]. Qed.
