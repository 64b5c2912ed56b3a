-Q theories Verif
theories/Cuts_model.v
theories/Cuts_spec.v
theories/Cuts_proofs.v
theories/Cuts_props.v
theories/Delayed_model.v
theories/Delayed_spec.v
theories/Delayed_proofs.v
theories/Delayed_props.v
theories/Grid.v
theories/Lit.v
theories/Perm_model.v
theories/Perm_spec.v
theories/Perm_proofs.v
theories/Perm_mx_proofs.v
theories/Perm_props.v
theories/Tri_model.v
theories/Tri_spec.v
theories/Tri_proofs.v
theories/Trmm_proofs.v
theories/Trtri_proofs.v
theories/Tri_props.v
theories/Pluq_model.v
theories/Pluq_spec.v
theories/Pluq_idx.v
theories/Pluq_combine.v
theories/Pluq_crout.v
theories/Pluq_proofs.v
theories/Pluq_main.v
theories/Pluq_rank.v
theories/Pluq_api_proofs.v
theories/Pluq_props.v
theories/Api_model.v
theories/Api_spec.v
theories/Api_blocks.v
theories/Api_proofs.v
theories/Null_proofs.v
theories/Rand_proofs.v
theories/Prof_proofs.v
theories/Api_props.v
theories/Ludiv_model.v
theories/Ludiv_spec.v
theories/Ludiv_proofs.v
theories/Ludiv_rank.v
theories/Ludiv_sub.v
theories/Ludiv_props.v
theories/Ech_model.v
theories/Ech_spec.v
theories/Ech_proofs.v
theories/Ech_steps.v
theories/Ech_acc.v
theories/Ech_acc2.v
theories/Ech_main.v
theories/Ech_thm.v
theories/Inv_proofs.v
theories/Gj_base.v
theories/Gj_two.v
theories/Gj_proofs.v
theories/Ech_props.v
theories/Wino_model.v
theories/Wino_spec.v
theories/Wino_proofs.v
theories/Wino_sched.v
theories/Wino_rec.v
theories/Wino_props.v
theories/Check_model.v
theories/Check_spec.v
theories/Check_proofs.v
theories/Check_props.v
theories/Trsmb_model.v
theories/Trsmb_spec.v
theories/Trsmb_proofs.v
theories/Trsmb_props.v
theories/Mulhi_model.v
theories/Mulhi_spec.v
theories/Mulhi_proofs.v
theories/Mulhi_props.v
theories/Red_model.v
theories/Red_spec.v
theories/Red_proofs.v
theories/Red_props.v
theories/Axpy_model.v
theories/Axpy_spec.v
theories/Axpy_proofs.v
theories/Axpy_props.v
theories/Transp_model.v
theories/Transp_spec.v
theories/Transp_proofs.v
theories/Transp2_proofs.v
theories/Transp_props.v
theories/Shuf_model.v
theories/Shuf_spec.v
theories/Shuf_proofs.v
theories/Shuf_props.v
theories/Emul_model.v
theories/Emul_spec.v
theories/Emul_proofs.v
theories/Emul_props.v
theories/Sparse_model.v
theories/Sparse_spec.v
theories/Sparse_proofs.v
theories/Sparse2_proofs.v
theories/Sparse3_proofs.v
theories/Sparse2_model.v
theories/Sparse4_proofs.v
theories/Sparse5_proofs.v
theories/Sparse_props.v
theories/Syrkd_model.v
theories/Syrkd_proofs.v
theories/Syrkd_props.v
theories/Sym_model.v
theories/Sym_spec.v
theories/Sym_proofs.v
theories/Sym2_proofs.v
theories/Sym3_proofs.v
theories/Sym4_proofs.v
theories/Sym5_proofs.v
theories/Sym6_proofs.v
theories/Sym7_proofs.v
theories/Sym_props.v
theories/Rns_model.v
theories/Rns_spec.v
theories/Rns_proofs.v
theories/Rns2_proofs.v
theories/Rns3_proofs.v
theories/Rns4_proofs.v
theories/Rns_props.v
theories/Par_model.v
theories/Par_spec.v
theories/Par_proofs.v
theories/Par2_proofs.v
theories/Par3_proofs.v
theories/Par4_proofs.v
theories/Par5_proofs.v
theories/Par6_proofs.v
theories/Par7_proofs.v
theories/Par8_proofs.v
theories/Par_props.v
theories/Partr_model.v
theories/Partr_spec.v
theories/Partr_proofs.v
theories/Partr_props.v
theories/Padd_model.v
theories/Padd_spec.v
theories/Padd_proofs.v
theories/Padd_props.v
theories/Strass_model.v
theories/Strass_spec.v
theories/Strass_proofs.v
theories/Strass2_proofs.v
theories/Strass3_proofs.v
theories/Strass4_proofs.v
theories/Strass_props.v
theories/Charp_model.v
theories/Charp_spec.v
theories/Charp_proofs.v
theories/Charp_kry.v
theories/Charp_luk.v
theories/Charp_props.v
theories/Detmp_model.v
theories/Detmp_field.v
theories/Detmp_proofs.v
theories/Detmp_props.v
theories/Bruhat_model.v
theories/Bruhat_spec.v
theories/Bruhat_combine.v
theories/Bruhat_proofs.v
theories/Bruhat_rank.v
theories/Bruhat_get.v
theories/Bruhat_ex.v
theories/Bruhat_props.v
theories/Bidiag_model.v
theories/Bidiag_spec.v
theories/Bidiag_echelon.v
theories/Bidiag_fold.v
theories/Bidiag_proofs.v
theories/Bidiag_ex.v
theories/Bidiag_props.v
theories/Sss_model.v
theories/Sss_spec.v
theories/Sss_proofs.v
theories/Sss_prod.v
theories/Sss_dense.v
theories/Sssgen_model.v
theories/Sssgen_proofs.v
theories/Sssgen_up.v
theories/Sssgen_low.v
theories/Sssgen_thm.v
theories/Sssgen_conv.v
theories/Sss_ex.v
theories/Sss_props.v
theories/Rmat_model.v
theories/Rmat_spec.v
theories/Rmat_proofs.v
theories/Rmat_mat.v
theories/Rmat_sym.v
theories/Rmat_ex.v
theories/Rmat_props.v
theories/Igemm_model.v
theories/Igemm_spec.v
theories/Igemm_proofs.v
theories/Igemm_pack.v
theories/Igemm_main.v
theories/Igemm_ex.v
theories/Igemm_props.v
theories/Ppluq_model.v
theories/Ppluq_spec.v
theories/Ppluq_proofs.v
theories/Ppluq_ex.v
theories/Ppluq_thr.v
theories/Ppluq_props.v
theories/Mono_model.v
theories/Mono_spec.v
theories/Mono_proofs.v
theories/Mono_props.v
theories/Monoc_model.v
theories/Monoc_proofs.v
theories/Monoc_pluq.v
theories/Monoc_props.v
theories/Ppar_model.v
theories/Ppar_proofs.v
theories/Ppar_spec.v
theories/Ppar_ech.v
theories/Ppar_props.v
