(** Lifting of lane functions to registers: every building block of a kernel maps [map g p] to [map g' p]. *)
From Coq Require Import ZifyBool ZifyNat.
From Verif Require Import Base Cxx Spec X86Vec X86 X86Lemmas X86Proofs X86Ops X86Shift.
Set Implicit Arguments.

Lemma vmap2_same {A} (f : Z -> Z -> Z) (g h : A -> Z) (p : list A) :
  vmap2 f (map g p) (map h p) = map (fun q => f (g q) (h q)) p.
Proof. induction p; cbn; congruence. Qed.
Lemma vmap3_same {A} (f : Z -> Z -> Z -> Z) (g h k : A -> Z) (p : list A) :
  vmap3 f (map g p) (map h p) (map k p) = map (fun q => f (g q) (h q) (k q)) p.
Proof. induction p; cbn; congruence. Qed.
Lemma repeat_map {A} (c : Z) (p : list A) n : length p = n -> repeat c n = map (fun _ => c) p.
Proof. intros <-. induction p; cbn; congruence. Qed.
Lemma map_fst_combine {A B} (a : list A) (b : list B) : length a = length b -> map fst (combine a b) = a.
Proof. revert b. induction a as [|x a IH]; intros [|y b] H; cbn in *; try lia; auto. f_equal. apply IH. lia. Qed.
Lemma map_snd_combine {A B} (a : list A) (b : list B) : length a = length b -> map snd (combine a b) = b.
Proof. revert b. induction a as [|x a IH]; intros [|y b] H; cbn in *; try lia; auto. f_equal. apply IH. lia. Qed.
Lemma vmap2_combine (g : Z -> Z -> Z) (a b : vec) : vmap2 g a b = map (fun q => g (fst q) (snd q)) (combine a b).
Proof. revert b. induction a as [|x a IH]; intros [|y b]; cbn; auto. f_equal. apply IH. Qed.

Section K.
Context {X : xty} (HX : xty_ok X) {A : Type} {D : A -> Prop} {p : list A} (Hp : length p = ext X) (HD : Forall D p).
Local Notation w := (xw X).
(** lanes of [map g p] are w-bit patterns *)
Definition lw (g : A -> Z) : Prop := forall q, D q -> word w (g q).
Lemma lw_wfv g : lw g -> wfv X (map g p).
Proof.
  intros H. split. { now rewrite map_length. } apply Forall_map. eapply Forall_impl; [|exact HD]. exact H.
Qed.
Lemma lw_const c : word w c -> lw (fun _ => c). Proof. intros H q _. exact H. Qed.
Lemma k_const c : v_fill X c = map (fun _ => c) p. Proof. apply repeat_map. exact Hp. Qed.
Lemma k_zero : zerov X = map (fun _ => 0%Z) p. Proof. apply repeat_map. exact Hp. Qed.
Lemma k_eq g h : lw g -> lw h -> cmp_eq X (map g p) (map h p) = map (fun q => mlane w (lane_eq X (g q) (h q))) p.
Proof. intros. rewrite cmp_eq_lanes by auto using lw_wfv. apply vmap2_same. Qed.
Lemma k_gt g h : lw g -> lw h -> cmp_gt X (map g p) (map h p) = map (fun q => mlane w (lane_gt X (g q) (h q))) p.
Proof. intros. rewrite cmp_gt_lanes by auto using lw_wfv. apply vmap2_same. Qed.
Lemma k_add F g h : lw g -> lw h -> v_add X F (map g p) (map h p) = map (fun q => lane_add X F (g q) (h q)) p.
Proof. intros. rewrite v_add_lanes by auto using lw_wfv. apply vmap2_same. Qed.
Lemma k_sub F g h : lw g -> lw h -> v_sub X F (map g p) (map h p) = map (fun q => lane_sub X F (g q) (h q)) p.
Proof. intros. rewrite v_sub_lanes by auto using lw_wfv. apply vmap2_same. Qed.
Lemma k_mul F g h : lw g -> lw h -> v_mul X F (map g p) (map h p) = map (fun q => lane_mul X F (g q) (h q)) p.
Proof. intros. rewrite v_mul_lanes by auto using lw_wfv. apply vmap2_same. Qed.
Lemma k_shiftl n g : c_shiftl X n (map g p) = map (fun q => shl_bits w n (g q)) p.
Proof. rewrite c_shiftl_lanes, map_map. reflexivity. Qed.
Lemma k_shiftr n g : c_shiftr X n (map g p) = map (fun q => lshr_bits n (g q)) p.
Proof. rewrite c_shiftr_lanes, map_map. reflexivity. Qed.
Lemma k_blend g h b : lw g -> lw h ->
  blendv X (map g p) (map h p) (map (fun q => mlane w (b q)) p) = map (fun q => if b q then h q else g q) p.
Proof.
  intros Hg Hh. replace (map (fun q => mlane w (b q)) p) with (map (mlane w) (map b p)) by (rewrite map_map; reflexivity).
  rewrite blendv_canon; auto using lw_wfv. 2:{ now rewrite map_length. }
  clear. induction p as [|q l IH]; cbn; auto. f_equal. exact IH.
Qed.
Lemma k_ext (g h : A -> Z) : (forall q, D q -> g q = h q) -> map g p = map h p.
Proof. intros H. apply map_ext_in. intros q Hq. apply H. exact (proj1 (Forall_forall _ _) HD q Hq). Qed.
End K.
Arguments lw : clear implicits. Arguments lw X {A} D g.

(** A kernel shown lanewise on [map fst p], [map snd p] is lanewise on any two registers. *)
Lemma kernel2 X (K : vec -> vec -> vec) (g : Z -> Z -> Z) :
  (forall p : list (Z * Z), length p = ext X -> Forall (fun q => word (xw X) (fst q) /\ word (xw X) (snd q)) p ->
     K (map fst p) (map snd p) = map (fun q => g (fst q) (snd q)) p) ->
  forall a b, wfv X a -> wfv X b -> K a b = vmap2 g a b.
Proof.
  intros H a b [La Wa] [Lb Wb]. specialize (H (combine a b)).
  assert (L : length a = length b) by congruence.
  rewrite map_fst_combine, map_snd_combine in H by exact L. rewrite vmap2_combine. apply H.
  - rewrite combine_length. lia.
  - apply Forall_forall. intros [x y] Hq. split.
    + apply in_combine_l in Hq. exact (words_In _ Wa Hq).
    + apply in_combine_r in Hq. exact (words_In _ Wb Hq).
Qed.
Lemma kernel1 X (K : vec -> vec) (g : Z -> Z) :
  (forall p : list Z, length p = ext X -> Forall (word (xw X)) p -> K (map (fun x => x) p) = map g p) ->
  forall a, wfv X a -> K a = map g a.
Proof. intros H a [La Wa]. specialize (H a La Wa). now rewrite map_id in H. Qed.
