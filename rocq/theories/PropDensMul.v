(** Operations on density matrices (C53, C54): what holds in every reachable state in exact arithmetic as
    long as no density matrix is asked for in reduced form, and what goes wrong with reduced forms, with
    witnesses computed in doubles. *)
From Coq Require Import ZArith List Bool Lia Arith Reals Lra SpecFloat.
From Verif Require Import Num Base CTable CTableWf Cx State Pkg Density DensMul Read Control Gate Meas Inv InvL PrimL NormL MkL TrL AddL MulL CanonL IdentL StateL DensL TraceL GateAct Run Inst PropBase PropSem PropMeas PropReduce PropDens.
Import ListNotations.
Local Open Scope Z_scope.

Section DensP.
Context (g : cfg R0) (nb : kind -> Z) (G : gok g).
Local Notation X := (XR g G).
Local Notation entry := (entry g G).
Local Notation reachedR := (reachedR g nb G).
Local Notation unchanged := (unchanged g G).
Local Notation gives := (gives g nb G).
Local Notation co := (co R0).

(** A call on density matrices that leaves no node marked. *)
Lemma dgives nq V D s c k l f0 (m : DensMul.D R0 edge) (f : list nat -> C) :
  reachedR nq s V D -> dstep (X:=X) nq D c (D ++ [dnew k l f0]) [] -> exec R0 g nb c V = push R0 V (dcall R0 m) ->
  Inv.wp R0 (al0 R0 g X) (m mz) s (fun r s' => snd r = mz /\ step R0 g nb X [] s s' /\ (forall p, vpath k l p -> de R0 g X (co s') k (fst r) p = f p)) ->
  exists r s', m mz s = Ok (r, mz) s' /\ gives nq V D s k l r s' f.
Proof.
  intros H Ds Ec W. destruct (wp_ok g G (m mz) s _ _ (al0_1 g G) W) as ([r k0] & s' & E & Ek & St & F). cbn [fst snd] in *. subst k0.
  exists r, s'. split; auto. split; [|split; auto].
  - exists f0. eapply (reached_exec (X:=X) G nq s V D c _ [] (V ++ [r]) [] s' H Ds). rewrite Ec. unfold push, dcall, bind, ret. now rewrite E.
  - eapply step_unchanged; eauto.
Qed.

(** * C53 *)
(** The density matrix of the state |0...0>. *)
Theorem zero_density nq s V D n : reachedR nq s V D -> 0 <= n <= nq ->
  exists r s', makeZeroDensity R0 g nb n s = Ok r s' /\
    gives nq V D s KD (n - 1) r s' (fun p => if forallb (Nat.eqb 0) p then C1 else C0).
Proof.
  intros H Hn. destruct (reached_inv _ _ _ _ _ _ _ H) as (I & Ow & Q).
  eapply gives_push; [exact H|apply (d_dzero (X:=X) nq D n Hn)|reflexivity|apply al0_1|].
  eapply wp_mono; [apply (makeZeroDensity_sp (g:=g) (nb:=nb) (X:=X) G s [] n); auto; lia|].
  intros r s' (S' & O' & T' & V'). split; auto. intros p Vp. apply V'; auto. exact Logic.I.
Qed.

Theorem density_sum nq s V D l x y : reachedR nq s V D -> usr V D KD l x -> usr V D KD l y ->
  exists r s', addD R0 g nb (hden x) (hden y) mz s = Ok (r, mz) s' /\
    gives nq V D s KD l r s' (fun p => entry s KD x p + entry s KD y p)%C.
Proof.
  intros H Hx Hy. destruct (usr_t _ _ _ _ _ _ _ _ _ _ H Hx) as [L Tx]. destruct (usr_t _ _ _ _ _ _ _ _ _ _ H Hy) as [_ Ty].
  destruct Hx as (i & a & Li & <-), Hy as (j & b & Lj & <-). destruct (reached_inv _ _ _ _ _ _ _ H) as (I & Ow & Q).
  eapply dgives; [exact H|apply (d_dadd (X:=X) nq D l i j a b); auto|reflexivity|].
  eapply wp_mono; [apply (addD_sp (g:=g) (nb:=nb) (X:=X) G s [] l); auto|].
  intros r s' (Ek & O' & S' & T' & V'). split; auto. split; auto. intros p Vp. apply V'; auto. exact Logic.I.
Qed.

(** Each operand is a density matrix ([KD]) or a matrix ([KM]). *)
Theorem density_product nq s V D ka kb l x y : reachedR nq s V D -> ka <> KV -> kb <> KV -> usr V D ka l x -> usr V D kb l y ->
  exists r s', multiplyD R0 g nb (dopd ka x) (dopd kb y) 0 false mz s = Ok (r, mz) s' /\
    gives nq V D s KD l r s' (fun p => Csum (fun ks => entry s ka x (mp (rowd p) ks) * entry s kb y (mp ks (cold p)))%C (bits (length p))).
Proof.
  intros H Ka Kb Hx Hy. destruct (usr_t _ _ _ _ _ _ _ _ _ _ H Hx) as [L Tx]. destruct (usr_t _ _ _ _ _ _ _ _ _ _ H Hy) as [_ Ty].
  destruct Hx as (i & a & Li & <-), Hy as (j & b & Lj & <-). destruct (reached_inv _ _ _ _ _ _ _ H) as (I & Ow & Q).
  eapply dgives; [exact H|apply (d_dmul (X:=X) nq D ka kb l i j a b); auto|reflexivity|].
  destruct (dopd_ok (g:=g) (X:=X) (co s) ka l (var V i) Ka Tx) as [Ta Da]. destruct (dopd_ok (g:=g) (X:=X) (co s) kb l (var V j) Kb Ty) as [Tb Db].
  eapply wp_mono; [apply (multiplyD_sp (g:=g) (nb:=nb) (X:=X) G s [] l); auto|].
  intros r s' (Ek & O' & S' & T' & V'). split; auto. split; auto. intros p Vp. rewrite V' by (auto; exact Logic.I). rewrite Da, Db.
  apply (psum_dmm l); auto.
Qed.

(** applyOperationToDensity: the reference held to the density matrix becomes one to U rho U^dagger. *)
Theorem operation_on_density nq s V D i l c f u : reachedR nq s V D -> nth_error D i = Some (Some (DV KD l (S c) f)) -> usr V D KM l u ->
  exists r s' D', applyOpD R0 g nb (hden (var V i)) u false mz s = Ok (hden r, mz) s' /\ reachedR nq s' (V ++ [r]) D' /\
    referenced (V ++ [r]) D' KD l r /\ unchanged V D s s' /\
    forall p, vpath KD l p -> entry s' KD r p =
      Csum (fun a => Csum (fun b => entry s KM u (mp (rowd p) a) * entry s KD (var V i) (mp a b) * Cconj (entry s KM u (mp (cold p) b)))%C
        (bits (length p))) (bits (length p)).
Proof.
  intros H E0 Hu. pose proof (reached_len _ _ _ _ _ _ _ H) as LD. destruct Hu as (j & b & Lj & <-).
  destruct (red_call g nb G nq s V D (@IDApply R0 i j) i KD l (Some (dconj (entry s KM (var V j)) (entry s KD (var V i)))) _ H (fun _ => eq_refl)) as (r & s' & D' & A & B & E & F & W).
  { apply (d_dapply (X:=X) nq _ l i j c (Some (entry s KD (var V i))) (Some (entry s KM (var V j)))); [eapply full_nth; eauto|eapply full_live; eauto]. }
  unfold dcall, bind, ret in A. destruct (applyOpD R0 g nb (hden (var V i)) (var V j) false mz s) as [[e k] s1| |] eqn:Ea; try discriminate. cbn [fst] in A. injection A as A1 A2.
  assert (Ek: k = mz /\ e = hden r).
  { subst s1 r. revert Ea. clear - H E0 Lj G LD.
    destruct (reached_inv _ _ _ _ _ _ _ H) as (I & Ow & Q).
    destruct (usr_t g nb G nq s V D KD l (var V i) H) as [L Tx]; [exists i, f; split; auto; now exists (S c)|]. destruct (usr_t g nb G nq s V D KM l (var V j) H) as [_ Ty]; [exists j, b; auto|].
    intros Ea. unfold applyOpD in Ea.
    assert (W: Inv.wp R0 (al0 R0 g X) (dbind R0 (dlift R0 (conjugateTranspose R0 g nb (var V j))) (fun tmp0 => dbind R0 (multiplyD R0 g nb (hden (var V i)) (hmat tmp0) 0 false)
       (fun tmp1 => multiplyD R0 g nb (hmat (var V j)) (hden tmp1) 0 false)) mz) s (fun r s' => snd r = mz)).
    { apply wp_dbind, wp_dlift. eapply wp_mono; [apply (conjTrans_sp (g:=g) (nb:=nb) (X:=X) G l (proj1 L) s [] (var V j) I Ow Ty)|].
      intros t0 s1 (S1 & O1 & T1 & _). cbn [fst snd].
      assert (Q1: s_nq s1 = s_nq s) by apply (qe_nq _ _ _ (sp_ext _ _ _ _ _ _ _ S1)).
      apply wp_dbind. eapply wp_mono; [apply (multiplyD_sp (g:=g) (nb:=nb) (X:=X) G s1 [] l); auto; [lia|apply S1| |]|].
      - apply (dopd_ok (g:=g) (X:=X) (co s1) KD); [discriminate|]. eapply tedge_ext; [apply S1|exact Tx].
      - apply (dopd_ok (g:=g) (X:=X) (co s1) KM); [discriminate|exact T1].
      - intros [t1 k1] s2 (-> & O2 & S2 & T2 & _). cbn [fst snd] in *. assert (Q2: s_nq s2 = s_nq s1) by apply (qe_nq _ _ _ (sp_ext _ _ _ _ _ _ _ S2)).
        eapply wp_mono; [apply (multiplyD_sp (g:=g) (nb:=nb) (X:=X) G s2 [] l); auto; [lia|apply S2| |]|].
        + apply (dopd_ok (g:=g) (X:=X) (co s2) KM); [discriminate|]. eapply tedge_ext; [apply S2|]. eapply tedge_ext; [apply S1|exact Ty].
        + apply (dopd_ok (g:=g) (X:=X) (co s2) KD); [discriminate|exact T2].
        + intros r s3 (Ek & _). exact Ek. }
    unfold Inv.wp, dbind, dlift, bind, ret in *. cbn [fst snd] in *.
    destruct (conjugateTranspose R0 g nb (var V j) s) as [t0 s1| |]; try discriminate. cbn [fst snd] in *.
    destruct (multiplyD R0 g nb (hden (var V i)) (hmat t0) 0 false mz s1) as [[t1 k1] s2| |]; try discriminate. cbn [fst snd] in *.
    destruct (multiplyD R0 g nb (hmat (var V j)) (hden t1) 0 false k1 s2) as [[t2 k2] s3| |]; try discriminate. cbn [fst snd] in *.
    destruct (incRef R0 KD t2 s3) as [? s4| |]; try discriminate. cbn [fst snd] in *. destruct (decRef R0 KD _ s4) as [? s5| |]; try discriminate.
    unfold dret, dlift, bind, ret in Ea. injection Ea as <- <- _. split; auto; destruct t2; reflexivity. }
  destruct Ek as [-> ->]. exists r, s', D'. split; [now rewrite A2|]. split; auto. split; auto. split; auto.
  intros p Vp. rewrite (W _ eq_refl p Vp). unfold dconj, dmm. apply Csum_ext. intros ks Hk. rewrite <- Csum_mul_l.
  assert (Vk: vpath KV l ks). { pose proof (InvL.vpath_len _ _ _ Vp) as Lp. rewrite Lp in Hk. apply bits_vpath in Hk; auto. destruct Vp; lia. }
  destruct (mp_rc l p Vp) as (_ & Vr & Vc). 
  assert (Lk: length (mp ks (cold p)) = length p). { rewrite (InvL.vpath_len _ _ _ Vp). apply (InvL.vpath_len KM l). now apply vpath_mp. }
  rewrite Lk. apply Csum_ext. intros ms Hm.
  assert (Vm: vpath KV l ms). { pose proof (InvL.vpath_len _ _ _ Vp) as Lp. rewrite Lp in Hm. apply bits_vpath in Hm; auto. destruct Vp; lia. }
  rewrite rowd_mp, cold_mp by (first [apply Vk|apply Vc|destruct Vk, Vc; lia]).
  unfold dct. rewrite tr4_mp by (first [apply Vm|apply Vc]). ring.
Qed.
End DensP.

(** A pure state stays pure: |psi><psi| becomes |U psi><U psi|. *)
Theorem operation_on_pure_density g nb G nq s V D i l c f u psi : reachedR g nb G nq s V D -> nth_error D i = Some (Some (DV KD l (S c) f)) -> usr V D KM l u ->
  (forall p, vpath KD l p -> entry g G s KD (var V i) p = (psi (rowd p) * Cconj (psi (cold p)))%C) ->
  exists r s' D', applyOpD R0 g nb (hden (var V i)) u false mz s = Ok (hden r, mz) s' /\ reachedR g nb G nq s' (V ++ [r]) D' /\
    referenced (V ++ [r]) D' KD l r /\ unchanged g G V D s s' /\
    let phi rs := Csum (fun cs => entry g G s KM u (mp rs cs) * psi cs)%C (bits (length rs)) in
    forall p, vpath KD l p -> entry g G s' KD r p = (phi (rowd p) * Cconj (phi (cold p)))%C.
Proof.
  intros H E0 Hu Hp. destruct (operation_on_density g nb G nq s V D i l c f u H E0 Hu) as (r & s' & D' & A & B & E & F & W).
  exists r, s', D'. split; auto. split; auto. split; auto. split; auto. intros phi p Vp. rewrite W by auto. unfold phi.
  destruct (mp_rc l p Vp) as (_ & Vr & Vc). rewrite (InvL.vpath_len _ _ _ Vr), (InvL.vpath_len _ _ _ Vc), (InvL.vpath_len _ _ _ Vp).
  rewrite Csum_conj, <- Csum_mul_r. apply Csum_ext. intros a Ha. rewrite <- Csum_mul_l. apply Csum_ext. intros b Hb.
  apply bits_vpath in Ha, Hb; try (destruct Vp; lia).
  rewrite Hp by (now apply vpath_mp). rewrite rowd_mp, cold_mp by (first [apply Hb|destruct Ha, Hb; lia]). rewrite !Cconj_mul. ring.
Qed.

(** ** Example: the matrix [[1, 2], [3i, 4]] applied to |0><0| *)
Definition progD : list (ins R0) := [@IDZero R0 1; IInc KD 0; @IMat R0 mat1].
Definition DD : denv := [Some (DV KD 0 1 (Some dzero)); dnew KM 0 (Some fM)].
Lemma reachedD : exists s V, reachedR gR nbdef GR 1 s V DD.
Proof.
  destruct (runs gR nbdef GR 1 progD DD []) as (s & V & outs & _ & H & _); [lia|apply nbdef_pos| |eauto].
  unfold progD. change (@nil (option dout)) with ([] ++ [] ++ [] ++ @nil (option dout)).
  eapply dr_cons; [apply d_dzero; lia|]. eapply dr_cons; [eapply d_inc; exists 0%nat; reflexivity|].
  eapply dr_cons; [apply (d_mat (N:=R0) 1 _ 1 mat1); [reflexivity|intros r [<-|[<-|[]]]; reflexivity|cbn; lia]|]. apply dr_nil.
Qed.
Lemma usrDD V : usr V DD KD 0 (var V 0) /\ usr V DD KM 0 (var V 1).
Proof. split; [exists 0%nat|exists 1%nat]; eexists; (split; [eexists; reflexivity|reflexivity]). Qed.
Lemma vp_kd0 a : (a < 4)%nat -> vpath KD 0 [a].
Proof. intros H. split; [reflexivity|]. constructor; [exact H|constructor]. Qed.

Example zero_density_example : exists s V r s', reachedR gR nbdef GR 3 s V D0 /\ makeZeroDensity R0 gR nbdef 1 s = Ok r s' /\
  entry gR GR s' KD r [0]%nat = C1 /\ entry gR GR s' KD r [3]%nat = C0.
Proof.
  destruct reached0 as (s & V & H). destruct (zero_density gR nbdef GR 3 s V D0 1 H) as (r & s' & E & _ & F & _); [lia|].
  exists s, V, r, s'. split; auto. split; auto. now rewrite !F by (apply vp_kd0; lia).
Qed.
Example density_sum_example : exists s V r s', reachedR gR nbdef GR 1 s V DD /\
  addD R0 gR nbdef (hden (var V 0)) (hden (var V 0)) mz s = Ok (r, mz) s' /\ entry gR GR s' KD r [0]%nat = RtoC 2.
Proof.
  destruct reachedD as (s & V & H). destruct (usrDD V) as [U0 U1].
  destruct (density_sum gR nbdef GR 1 s V DD 0 _ _ H U0 U0) as (r & s' & E & _ & F & _).
  exists s, V, r, s'. split; auto. split; auto. rewrite F by (apply vp_kd0; lia).
  rewrite (usr_entry gR nbdef GR 1 s V DD 0 KD 0 dzero H) by (first [now exists 1%nat|apply vp_kd0; lia]). cval.
Qed.
Example density_product_example : exists s V r s', reachedR gR nbdef GR 1 s V DD /\
  multiplyD R0 gR nbdef (hmat (var V 1)) (hden (var V 0)) 0 false mz s = Ok (r, mz) s' /\ entry gR GR s' KD r [2]%nat = (0, 3)%R.
Proof.
  destruct reachedD as (s & V & H). destruct (usrDD V) as [U0 U1].
  destruct (density_product gR nbdef GR 1 s V DD KM KD 0 _ _ H ltac:(discriminate) ltac:(discriminate) U1 U0) as (r & s' & E & _ & F & _).
  exists s, V, r, s'. split; auto. split; auto. rewrite F by (apply vp_kd0; lia). unfold Csum; cbn [length bits map app fold_right mp Nat.mul Nat.add combine fst snd rowd cold Nat.div Nat.modulo].
  rewrite !(usr_entry gR nbdef GR 1 s V DD 0 KD 0 dzero H) by (first [now exists 1%nat|apply vp_kd0; cbn; lia]).
  rewrite !(usr_entry gR nbdef GR 1 s V DD 1 KM 0 fM H) by (first [now exists 0%nat|apply (vp_kd0 _); cbn; lia]). cval.
Qed.
(** The result has the entries 1, -3i, 3i and 9. *)
Example operation_on_density_example : exists s V r s' D', reachedR gR nbdef GR 1 s V DD /\
  applyOpD R0 gR nbdef (hden (var V 0)) (var V 1) false mz s = Ok (hden r, mz) s' /\ reachedR gR nbdef GR 1 s' (V ++ [r]) D' /\
  entry gR GR s' KD r [1]%nat = (0, -3)%R /\ entry gR GR s' KD r [3]%nat = RtoC 9.
Proof.
  destruct reachedD as (s & V & H). destruct (usrDD V) as [U0 U1].
  destruct (operation_on_density gR nbdef GR 1 s V DD 0 0 0 (Some dzero) _ H eq_refl U1) as (r & s' & D' & A & B & _ & _ & W).
  exists s, V, r, s', D'. split; auto. split; auto. split; auto.
  rewrite !W by (apply vp_kd0; lia). unfold Csum; cbn [length bits map app fold_right mp Nat.mul Nat.add combine fst snd rowd cold Nat.div Nat.modulo].
  rewrite !(usr_entry gR nbdef GR 1 s V DD 0 KD 0 dzero H) by (first [now exists 1%nat|apply vp_kd0; cbn; lia]).
  rewrite !(usr_entry gR nbdef GR 1 s V DD 1 KM 0 fM H) by (first [now exists 0%nat|apply (vp_kd0 _); cbn; lia]). split; cval.
Qed.
Example operation_on_pure_density_example : exists s V psi, reachedR gR nbdef GR 1 s V DD /\ nth_error DD 0 = Some (Some (DV KD 0 1 (Some dzero))) /\ usr V DD KM 0 (var V 1) /\
  forall p, vpath KD 0 p -> entry gR GR s KD (var V 0) p = (psi (rowd p) * Cconj (psi (cold p)))%C.
Proof.
  destruct reachedD as (s & V & H). destruct (usrDD V) as [U0 U1]. exists s, V, (fun a => if forallb (Nat.eqb 0) a then C1 else C0). split; auto. split; auto. split; auto.
  intros p Vp. rewrite (usr_entry gR nbdef GR 1 s V DD 0 KD 0 dzero H) by (first [now exists 1%nat|exact Vp]).
  destruct Vp as [L F]. destruct p as [|a [|b p]]; [discriminate| |cbn [length] in L; lia]. inversion F; subst. unfold arity in *. destruct a as [|[|[|[|]]]]; [| | | |lia]; cval.
Qed.

(** * The marks kept beside the state describe the nodes as the code rewrites them *)
Section Link.
Context (N : num) (s : st N).
(** A dEdge as in Density.v (Edge.hpp:19-21). *)
Definition dof (e : DensMul.hedge) : dedge := DE (DP (hdp (hp e)) (hk e)) (hw e).
(** The nodes of Density.v that the stored nodes and the marks [k] stand for. *)
Definition inplace (k : mkst) (h : dheap) : Prop := forall n,
  succs4 (h n) = map (fun i => dof (view N s k (HD (PNode n)) i)) [0; 1; 2; 3]%nat /\ dn_v (h n) = nv (nod s KD n) /\
  dn_mk (h n) = k n /\ dn_rest (h n) = (if nden (nod s KD n) then 8 else 0).
(** A stored node: a variable, and no imaginary part with the negative zero pointer. *)
Definition clean (p : nptr) : Prop :=
  match p with PNode n => 0 <= nv (nod s KD n) /\ Forall (fun e => ci (ew e) <> EP true AZero) (ne (nod s KD n)) | _ => True end.

Lemma node_eq x y : succs4 x = succs4 y -> dn_v x = dn_v y -> dn_mk x = dn_mk y -> dn_rest x = dn_rest y -> x = y.
Proof. destruct x, y. cbn. intros E. injection E as -> -> -> ->. now intros -> -> ->. Qed.

(** applyDmChangesToEdge: the same outcome, and afterwards again the same nodes. *)
Theorem marks_describe_nodes_apply k h e p : inplace k h -> clean p -> hp e = HD p ->
  match happly N e k s with
  | Ok (e', k') s' => s' = s /\ hw e' = hw e /\ exists h', applyDm h (de_p (dof e)) = inl (h', de_p (dof e')) /\ inplace k' h'
  | Bad b => applyDm h (de_p (dof e)) = inr b
  | Thr _ _ => False
  end.
Proof.
  intros I Cl Hp. destruct e as [q m w]. cbn in Hp. subst q. unfold happly, applyDm, dof. cbn [hk hp hw hdp de_p dp_mk dp_at].
  destruct (mk_dm m) eqn:Dm; [|cbn; split; auto; split; auto; exists h; auto].
  destruct p as [| |n]; [reflexivity|cbn; split; auto; split; auto; exists h; auto|].
  destruct (I n) as (E & Ev & Em & Er). destruct Cl as [V _]. rewrite Ev, Em. destruct (Z.leb_spec (nv (nod s KD n)) (-1)); [lia|].
  destruct (mk_none (k n)) eqn:Mn; [|reflexivity]. cbn. split; auto. split; auto. eexists. split; [reflexivity|].
  apply mk_none_iff in Mn. intros j. destruct (Nat.eq_dec j n) as [->|J].
  - rewrite !upd_eq. rewrite Mn, mk_or0. cbn [withM dn_v dn_mk dn_rest]. destruct (h n) as [a b c d v mk rest]. cbn [succs4 dn_e0 dn_e1 dn_e2 dn_e3 dn_v dn_mk dn_rest] in *. subst v mk rest.
    unfold view in E. rewrite Mn in E. cbn in E. injection E as -> -> -> ->. unfold view. rewrite upd_eq. destruct m as [[] [] []]; try discriminate; cbn; auto.
  - rewrite !upd_neq by auto. destruct (I j) as (E' & Ev' & Em' & Er'). repeat split; auto. rewrite E'. unfold view. now rewrite upd_neq by auto.
Qed.
(** revertDmChangesToEdge, on a pointer without marks. *)
Theorem marks_describe_nodes_revert k h p : inplace k h -> clean p ->
  match hrevert N (HD p) k s with
  | Ok (_, k') s' => s' = s /\ exists h', revertDm h (DP p mk0) = inl (h', DP p mk0) /\ inplace k' h'
  | Bad b => revertDm h (DP p mk0) = inr b
  | Thr _ _ => False
  end.
Proof.
  intros I Cl. unfold hrevert, revertDm. cbn [dp_mk dp_at mk_none mk0 mk_conj mk_first mk_dm negb andb].
  destruct p as [| |n]; [reflexivity|cbn; split; auto; exists h; auto|]. cbn. split; auto.
  destruct (I n) as (E & Ev & Em & Er). destruct Cl as [V Z]. rewrite Em. destruct (mk_dm (k n)) eqn:Dm; [|exists h; auto].
  eexists. split; [reflexivity|]. intros j. destruct (Nat.eq_dec j n) as [->|J].
  - rewrite !upd_eq. cbn [withM dn_v dn_mk dn_rest]. destruct (h n) as [a b c d v mk rest]. cbn [succs4 dn_e0 dn_e1 dn_e2 dn_e3 dn_v dn_mk dn_rest] in *. subst v mk rest.
    assert (F: forall i, ep_flip (ep_flip (ci (ew (nthe (ne (nod s KD n)) i)))) = ci (ew (nthe (ne (nod s KD n)) i))) 
      by (intros i; apply flip_flip; unfold nthe; destruct (nth_in_or_default i (ne (nod s KD n)) Enull) as [Hi | ->]; [rewrite Forall_forall in Z; now apply Z|discriminate]).
    unfold view in *. rewrite upd_eq. cbn [map dof] in E. unfold undoE. destruct (k n) as [[] [] []]; try discriminate; cbn in E; injection E as -> -> -> ->; unfold succs4, dof, withM, withE, onp, alignP, flipI, wconj, hden; cbn; rewrite ?F;
      repeat (match goal with |- context [CX (cr ?w) (ci ?w)] => replace (CX (cr w) (ci w)) with w by (now destruct w) end); split; auto.
  - rewrite !upd_neq by auto. destruct (I j) as (E' & Ev' & Em' & Er'). repeat split; auto. rewrite E'. unfold view. now rewrite upd_neq by auto.
Qed.
(** Between two calls, when no node is marked. *)
Definition at_rest_nodes : dheap := fun n =>
  let e i := dof (hden (nthe (ne (nod s KD n)) i)) in DN (e 0%nat) (e 1%nat) (e 2%nat) (e 3%nat) (nv (nod s KD n)) mk0 (if nden (nod s KD n) then 8 else 0).
Lemma inplace_rest : inplace mz at_rest_nodes.
Proof. intros n. repeat split. Qed.
End Link.

(** * C54: density matrices in reduced form *)
(** A configuration in which no two different operands of a multiplication meet in the compute table. *)
Definition heZ (e : edge) : Z := match ep e with PNode n => Z.of_nat n + 1 | _ => 0 end.
Definition gD : cfg NumF := Cfg NumF (CTcfg 65537 2048 2 65536) 2048 2 131072 (fun _ es => fold_right (fun e h => heZ e + 7 * h) 0 es)
  (fun _ x y => match vp x, vp y with PNode a, PNode b => Z.of_nat a + 1000 * Z.of_nat b | _, _ => 0 end) (fun _ a b => heZ a + 100000 * heZ b) (fun _ a => heZ a).
Definition nbD (k : kind) : Z := 256.

(** The gates: Hadamard, not, a rotation, and a Hadamard with another sign. *)
Definition dF3 : NumF := nadd n1 (nadd n1 n1).
Definition re (x : NumF) : NumF * NumF := (x, n0).
Definition gH : list (NumF * NumF) := [re nsq2; re nsq2; re nsq2; re (nneg nsq2)].
Definition gX : list (NumF * NumF) := [re n0; re n1; re n1; re n0].
Definition gRY : list (NumF * NumF) := let c := ndiv n1 (nsqrt dF3) in let s := nsqrt (ndiv (nadd n1 n1) dF3) in [re c; re (nneg s); re s; re c].
Definition gHn : list (NumF * NumF) := [re nsq2; re nsq2; re (nneg nsq2); re nsq2].

(** A circuit on |0...0><0...0|: for every gate its matrix, controls, target and the value of
    generateDensityMatrix. *)
Definition circuit (n : Z) (ops : list (list (NumF * NumF) * list control * Z * bool)) : M NumF (DensMul.hedge * mkst) :=
  let* z := makeZeroDensity NumF gD nbD n in
  incRef NumF KD z ;;;
  foldM NumF (fun (ek : DensMul.hedge * mkst) o => let '(m, cs, t, gen) := o in
     let* op := makeGateDD NumF gD nbD m n cs t 0 in applyOpD NumF gD nbD (fst ek) op gen (snd ek)) ops (hden z, mz).
(** The density matrix that getDensityMatrix returns at the end. *)
Definition readout (n : Z) ops : option (cmat NumF) :=
  match circuit n ops (pkg_init NumF gD n) with
  | Ok (e, k) s => match getDensityMatrix NumF (aval s) (at_rest_nodes NumF s) (DE (DP (hdp (hp e)) (hk e)) (hw e)) (Z.to_nat n + 2) with
                   | inl (_, _, m) => Some m
                   | inr _ => None
                   end
  | _ => None
  end.

(** A density matrix in reduced form whose root can be prepared and reverted. *)
Example marks_describe_nodes_example :
  match circuit 2 [(gH, [], 1, true); (gH, [], 0, true)] (pkg_init NumF gD 2) with
  | Ok (e, k) s => hk e = MK false false true /\ (forall n, (n < 10)%nat -> k n = mk0) /\ clean NumF s (hdp (hp e)) /\
      match happly NumF e mz s with
      | Ok (e', k') _ => hk (view NumF s k' (hp e') 2) = MK true false true
      | _ => False
      end
  | _ => False
  end.
Proof.
  assert (H: match circuit 2 [(gH, [], 1, true); (gH, [], 0, true)] (pkg_init NumF gD 2) with
    | Ok (e, k) s => hk e = MK false false true /\ forallb (fun n => mk_none (k n)) (seq 0 10) = true /\ clean NumF s (hdp (hp e)) /\
        match happly NumF e mz s with Ok (e', k') _ => hk (view NumF s k' (hp e') 2) = MK true false true | _ => False end
    | _ => False end).
  { vm_compute. repeat split; try discriminate; repeat constructor; discriminate. }
  destruct (circuit 2 _ _) as [[e k] s| |]; [|exact H|exact H]. destruct H as (A & B & C & D). split; auto. split; auto.
  intros n Hn. rewrite forallb_forall in B. apply mk_none_iff, B, in_seq. lia.
Qed.

(** The first four gates of a circuit on three qubits. *)
Definition ops4 : list (list (NumF * NumF) * list control * Z * bool) :=
  [(gH, [], 2, false); (gRY, [], 1, false); (gX, [Ctl 1 false], 0, false); (gHn, [Ctl 1 true], 0, false)].
(** The value [x] is below 2^-16 in magnitude. *)
Definition tiny (x : NumF) : bool := nltb (nabs x) (S754_finite false 4503599627370496 (-68)).

(** The matrix returned for a circuit depends on whether its last gate is applied with
    generateDensityMatrix: without it the entry at row 1 and column 4 is zero, as it must be because the
    diagonal entry 1, 1 is zero; with it that entry is below -1/16.  The result of a product whose
    reduced form is zero is stored without the flag for reduced forms and is later used for the product
    itself. *)
Theorem reduced_form_result_refuted : exists ops o,
  match readout 3 (ops ++ [(o, false)]), readout 3 (ops ++ [(o, true)]) with
  | Some m, Some m' => tiny (fst (m 1 1)) = true /\ tiny (fst (m 1 4)) = true /\ tiny (fst (m' 1 1)) = true /\
                       nltb (fst (m' 1 4)) (S754_finite true 4503599627370496 (-56)) = true
  | _, _ => False
  end.
Proof. exists ops4, (gH, [], 1). vm_compute. repeat split. Qed.

(** A density matrix in reduced form, multiplied with the identity: [Some (a, b)]: nodes [a] and [b]
    are different nodes in one chain of the unique table with the same successors, level and flags. *)
Definition gId : list (NumF * NumF) := [re n1; re n0; re n0; re n1].
Definition redTimesId (gen : bool) : M NumF (edge * mkst) :=
  let* ek := circuit 2 [(gH, [], 1, true); (gH, [], 0, true)] in
  let* op := makeGateDD NumF gD nbD gId 2 [] 0 0 in
  multiplyD NumF gD nbD (fst ek) (hmat op) 0 gen (snd ek).
(** Nodes created while others are marked are not shared with these. *)
Theorem density_nodes_unique_refuted : exists a b v c,
  match redTimesId false (pkg_init NumF gD 2) with
  | Ok (_, k) s => a <> b /\ In a (ut_tab (s_ut s KD) v c) /\ In b (ut_tab (s_ut s KD) v c) /\
      ne (nod s KD a) = ne (nod s KD b) /\ nv (nod s KD a) = nv (nod s KD b) /\ nden (nod s KD a) = nden (nod s KD b) /\
      mk_none (k a) = true /\ mk_none (k b) = true
  | _ => False
  end.
Proof. exists 10%nat, 8%nat, 0, 0. vm_compute. repeat split; auto; discriminate. Qed.

(** A reduced density matrix as the left operand of a product in reduced form: the marks set for the
    third block are not removed, and the assertion that a node is not marked twice is violated. *)
Theorem reduced_left_operand_refuted : exists gen,
  match redTimesId gen (pkg_init NumF gD 2) with Bad b => b = BadAssert | _ => False end.
Proof. exists true. vm_compute. reflexivity. Qed.

(** The same for the square of a reduced density matrix. *)
Theorem reduced_square_refuted : exists ops,
  match (let* ek := circuit 2 ops in multiplyD NumF gD nbD (fst ek) (fst ek) 0 false (snd ek)) (pkg_init NumF gD 2) with
  | Bad b => b = BadAssert
  | _ => False
  end.
Proof. exists [(gH, [], 1, true)]. vm_compute. reflexivity. Qed.

(** The compute table compares the addresses of the operands but not the marks of their nodes: where the
    hashes agree, the product of a node is returned for the product of its conjugate transpose. *)
Definition gC : cfg NumF := Cfg NumF (CTcfg 65537 2048 2 65536) 2048 2 131072 (fun _ _ => 0) (fun _ _ _ => 0) (fun _ _ _ => 0) (fun _ _ => 0).
Theorem lookup_ignores_marks_refuted : exists (x y : hptr) (k k' : mkst) (r : vedge NumF), hmarks k x <> hmarks k' x /\
  match ddInsert NumF gC k x y r (pkg_init NumF gC 2) with
  | Ok _ s => match ddLookup NumF gC k' x y false s with Ok (Some q) _ => vp q = vp r | _ => False end
  | _ => False
  end.
Proof.
  exists (HD (PNode 0)), (HM (PNode 0)), (fun _ => MK true false true), mz, (VE PTerm (n1, n0)).
  split; [discriminate|]. vm_compute. reflexivity.
Qed.

Print Assumptions zero_density.
Print Assumptions density_sum.
Print Assumptions density_product.
Print Assumptions operation_on_density.
Print Assumptions operation_on_pure_density.
Print Assumptions marks_describe_nodes_apply.
Print Assumptions marks_describe_nodes_revert.
Print Assumptions reduced_form_result_refuted.
Print Assumptions density_nodes_unique_refuted.
Print Assumptions reduced_left_operand_refuted.
Print Assumptions reduced_square_refuted.
Print Assumptions lookup_ignores_marks_refuted.
