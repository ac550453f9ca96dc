-Q theories Verif
theories/Prelude.v
theories/Scalar.v
theories/XR.v
theories/Tensor.v
theories/Tree.v
theories/TreeMore.v
theories/Bcast.v
theories/State.v
theories/M_numerics.v
theories/M_transform.v
theories/M_clipping.v
theories/M_schedule.v
theories/M_wrappers.v
theories/Machine.v
theories/P_machines.v
theories/Spec.v
theories/P_real.v
theories/Norms.v
theories/P_adaptive.v
theories/Laws.v
theories/Ex.v
theories/P_transform.v
theories/Props_transform.v
theories/P_optim.v
theories/Props_optim.v
theories/P_elem.v
theories/Props_elem.v
theories/P_norm.v
theories/Props_norm.v
theories/P_unit.v
theories/Props_unit.v
theories/P_sm3.v
theories/Props_sm3.v
theories/P_sched.v
theories/Props_sched.v
theories/P_sched2.v
theories/Props_sched2.v
theories/P_sched3.v
theories/Props_sched3.v
theories/M_inject.v
theories/P_inject.v
theories/Props_inject.v
theories/P_wrap.v
theories/Props_wrap.v
theories/P_multi.v
theories/Props_multi.v
theories/P_mask.v
theories/Props_mask.v
theories/P_flat.v
theories/Props_flat.v
theories/P_look.v
theories/Props_look.v
theories/M_privacy.v
theories/P_noise.v
theories/Props_noise.v
theories/M_alias.v
theories/P_alias.v
theories/Props_alias.v
theories/P_alias2.v
theories/Props_alias2.v
theories/P_sig.v
theories/Props_sig.v
theories/M_loss.v
theories/Rows.v
theories/P_loss.v
theories/Props_loss.v
theories/RMat.v
theories/M_linalg.v
theories/TMat.v
theories/P_power.v
theories/Props_power.v
theories/P_root.v
theories/Props_root.v
theories/P_root2.v
theories/Props_root2.v
theories/M_utils.v
theories/P_utils.v
theories/Props_utils.v
theories/Dual.v
theories/P_dual.v
theories/Props_dual.v
theories/P_grad.v
theories/Props_grad.v
theories/M_estim.v
theories/P_estim.v
theories/Props_estim.v
theories/P_score.v
theories/Props_score.v
theories/M_cv.v
theories/P_cv.v
theories/Props_cv.v
theories/P_delta.v
theories/Props_delta.v
theories/M_second.v
theories/P_second.v
theories/Props_second.v
theories/P_counters.v
theories/Props_counters.v
theories/Fl.v
theories/FlFacts.v
theories/P_ieee.v
theories/Props_ieee.v
theories/P_ieee2.v
theories/Props_ieee2.v
theories/P_ieee3.v
theories/Props_ieee3.v
theories/P_ieee4.v
theories/Props_ieee4.v
theories/P_ieee5.v
theories/Props_ieee5.v
theories/P_ieee6.v
theories/Props_ieee6.v
theories/P_ieee7.v
theories/Props_ieee7.v
theories/P_ieee8.v
theories/Props_ieee8.v
theories/P_ieee9.v
theories/Props_ieee9.v
theories/P_regret.v
theories/Props_regret.v
theories/P_accum.v
theories/Props_accum.v
theories/Gauss.v
theories/P_expect.v
theories/Props_expect.v
theories/P_multi2.v
theories/Props_multi2.v
theories/P_equiv.v
theories/Props_equiv.v
theories/GaussDP.v
theories/P_dp.v
theories/Props_dp.v
theories/P_dpsgd.v
theories/Props_dpsgd.v
theories/P_momentum.v
theories/Props_momentum.v
theories/P_diverge.v
theories/Props_diverge.v
theories/P_accel.v
theories/Props_accel.v
theories/P_pipe.v
theories/Props_pipe.v
theories/P_guard.v
theories/Props_guard.v
theories/P_station.v
theories/Props_station.v
theories/P_relaxed.v
theories/Props_relaxed.v
theories/P_sample.v
theories/Props_sample.v
theories/P_look2.v
theories/Props_look2.v
theories/P_batch.v
theories/Props_batch.v
theories/P_agree.v
theories/Props_agree.v
theories/P_front.v
theories/Props_front.v
theories/P_stable.v
theories/Props_stable.v
theories/P_lamb.v
theories/Props_lamb.v
theories/P_meta.v
theories/Props_meta.v
theories/P_proj.v
theories/Props_proj.v
theories/P_clip2.v
theories/Props_clip2.v
theories/P_budget.v
theories/Props_budget.v
theories/P_unused.v
theories/Props_unused.v
theories/P_target.v
theories/Props_target.v
theories/P_ieee10.v
theories/Props_ieee10.v
theories/P_trust.v
theories/Props_trust.v
theories/P_agc.v
theories/Props_agc.v
theories/P_priv.v
theories/Props_priv.v
theories/P_ieee11.v
theories/Props_ieee11.v
theories/P_ieee12.v
theories/Props_ieee12.v
