-Q theories Verif
theories/Base.v
theories/BaseOrd.v
theories/BaseFloat.v
theories/M_paths.v
theories/S_paths.v
theories/L_ord.v
theories/L_paths.v
theories/L_paths2.v
theories/L_paths3.v
theories/L_paths4.v
theories/L_paths5.v
theories/L_paths6.v
theories/L_paths7.v
theories/P_paths.v
theories/BaseNum.v
theories/BaseArr.v
theories/S_run.v
theories/L_paths8.v
theories/M_sde.v
theories/S_sde.v
theories/L_sde.v
theories/L_sde2.v
theories/L_sde3.v
theories/L_sde4.v
theories/M_presets.v
theories/S_presets.v
theories/L_presets.v
theories/P_sde.v
theories/S_sdes.v
theories/L_pack.v
theories/L_sim.v
theories/L_sdes.v
theories/L_sdes2.v
theories/P_sdes.v
theories/L_presets2.v
theories/L_presets3.v
theories/L_presets4.v
theories/L_presets5.v
theories/P_presets.v
theories/M_args.v
theories/S_args.v
theories/L_args.v
theories/P_args.v
theories/M_kfun.v
theories/S_kfun.v
theories/L_kfun.v
theories/P_kfun.v
theories/M_analytical.v
theories/S_analytical.v
theories/L_ode.v
theories/L_moments.v
theories/L_coefs.v
theories/P_moments.v
theories/P_bs.v
theories/S_chf.v
theories/L_complex.v
theories/L_heston.v
theories/L_heston2.v
theories/P_chf.v
theories/P_heston.v
theories/BaseNd.v
theories/M_mc.v
theories/S_mc.v
theories/L_nd.v
theories/L_mc.v
theories/L_mc2.v
theories/L_mc3.v
theories/L_mc4.v
theories/P_mc.v
theories/L_interp.v
theories/P_mc2.v
theories/BaseIdx.v
theories/M_process.v
theories/S_process.v
theories/L_process.v
theories/P_process.v
theories/L_process2.v
theories/P_process2.v
theories/P_process3.v
theories/M_source.v
theories/S_source.v
theories/L_source.v
theories/P_source.v
theories/P_source2.v
theories/P_source3.v
theories/M_rv.v
theories/S_rv.v
theories/L_rv.v
theories/L_gauss.v
theories/P_rv.v
theories/P_rv2.v
theories/M_true.v
theories/S_true.v
theories/L_true.v
theories/L_true2.v
theories/L_true3.v
theories/S_true2.v
theories/L_true4.v
theories/P_true.v
theories/P_true2.v
theories/P_true3.v
theories/P_true5.v
theories/P_true4.v
theories/P_true6.v
theories/L_true5.v
theories/P_true7.v
theories/S_true3.v
theories/L_true6.v
theories/L_true7.v
theories/L_true8.v
theories/P_true8.v
theories/P_true9.v
theories/P_true10.v
theories/M_dist.v
theories/S_dist.v
theories/L_gauss2.v
theories/L_dist.v
theories/P_dist.v
theories/P_price.v
theories/M_integrate.v
theories/S_integrate.v
theories/P_source4.v
theories/P_integrate.v
theories/S_euler.v
theories/L_euler.v
theories/P_euler.v
theories/L_euler2.v
theories/P_euler2.v
theories/S_cir.v
theories/L_gamma.v
theories/L_cir.v
theories/P_cir.v
theories/L_line.v
theories/L_fourier.v
theories/S_pdf.v
theories/L_mix.v
theories/L_expconv.v
theories/L_jumppdf.v
theories/L_hestonpdf.v
theories/M_pdf.v
theories/P_pdf.v
theories/S_law.v
theories/L_law.v
theories/L_law2.v
theories/L_law3.v
theories/L_law4.v
theories/L_law5.v
theories/M_jumps.v
theories/L_law6.v
theories/L_law7.v
theories/L_law8.v
theories/P_law.v
theories/S_gval.v
theories/L_gval.v
theories/L_gval2.v
theories/L_gval3.v
theories/L_gval4.v
theories/L_gval5.v
theories/L_gval6.v
theories/P_gval.v
theories/S_info.v
theories/L_info.v
theories/L_info2.v
theories/P_info.v
theories/M_anti.v
theories/S_tval.v
theories/L_tval.v
theories/L_tval2.v
theories/L_tval3.v
theories/L_tval4.v
theories/L_tval5.v
theories/L_tval6.v
theories/P_tval.v
theories/L_gop.v
theories/L_cirop.v
theories/L_cirop2.v
theories/L_cirop3.v
theories/L_nrun.v
theories/L_cirrun.v
theories/L_weier.v
theories/L_cirlim.v
theories/S_cirlaw.v
theories/P_cirlaw.v
theories/L_hesop.v
theories/L_hesop2.v
theories/L_hesop3.v
theories/L_hesop4.v
theories/S_heslaw.v
theories/L_hesrun.v
theories/L_hesgen.v
theories/P_heslaw.v
theories/M_short.v
theories/S_short.v
theories/L_short.v
theories/P_short.v
theories/M_std.v
theories/S_std.v
theories/P_std.v
theories/M_float.v
theories/S_float.v
theories/L_float.v
theories/L_float2.v
theories/L_float3.v
theories/L_float4.v
theories/P_float.v
theories/S_mean.v
theories/L_conv.v
theories/L_tame.v
theories/L_meanrun.v
theories/L_meanlaw.v
theories/L_est.v
theories/P_mean.v
theories/L_cok.v
theories/P_prob.v
theories/M_result.v
theories/S_stat.v
theories/L_stat.v
theories/P_stat.v
theories/S_pair.v
theories/L_pair.v
theories/L_pair2.v
theories/P_pair.v
theories/P_pair2.v
theories/S_float2.v
theories/L_float5.v
theories/P_float2.v
theories/S_float3.v
theories/L_float6.v
theories/P_float3.v
theories/P_true11.v
theories/P_rv3.v
