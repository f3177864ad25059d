-Q theories Verif
theories/Base.v
theories/Tensor.v
theories/Reshape.v
theories/Model_Axes.v
theories/Spec_Axes.v
theories/Proof_Axes.v
theories/Proof_Axes2.v
theories/Model_Kernel.v
theories/Spec_Kernel.v
theories/Proof_Kernel.v
theories/Prop_Axes.v
theories/Prop_Kernel.v
theories/Model_Batching.v
theories/Spec_Batching.v
theories/Proof_Batching.v
theories/Proof_Batching2.v
theories/Model_JitCache.v
theories/Proof_JitCache.v
theories/Example_Batching.v
theories/Prop_Batching.v
theories/Model_Slice.v
theories/Spec_Slice.v
theories/Proof_Slice.v
theories/Model_Get.v
theories/Spec_Get.v
theories/Proof_Get.v
theories/Model_Kwargs.v
theories/Proof_Kwargs.v
theories/Prop_Utils.v
theories/Model_MonteCarlo.v
theories/Spec_MonteCarlo.v
theories/Proof_MonteCarlo.v
theories/Prop_MonteCarlo.v
theories/Model_Req.v
theories/Spec_Req.v
theories/Proof_Req.v
theories/Proof_Serial.v
theories/Prop_Req.v
theories/Model_Geom.v
theories/Spec_Geom.v
theories/Proof_Geom.v
theories/Model_Net.v
theories/Spec_Net.v
theories/Proof_Net.v
theories/Proof_Diag.v
theories/Proof_Pull.v
theories/Proof_Runs.v
theories/Proof_Self.v
theories/Spec_Psd.v
theories/Proof_PsdBase.v
theories/Proof_Psd.v
theories/Example_Net.v
theories/Prop_Net.v
theories/Model_Elementwise.v
theories/Spec_Elementwise.v
theories/Proof_Elementwise.v
theories/Proof_ElemDeriv.v
theories/Proof_Series.v
theories/Proof_ElemPsd.v
theories/Proof_ElemBound.v
theories/Example_Elementwise.v
theories/Prop_Elementwise.v
theories/Spec_Moments.v
theories/Proof_Moments.v
theories/Proof_ElemDual.v
theories/Prop_Moments.v
theories/Model_Branching.v
theories/Spec_Branching.v
theories/Proof_Branching.v
theories/Proof_Branching2.v
theories/Proof_Branching3.v
theories/Proof_Branching4.v
theories/Proof_Branching5.v
theories/Proof_Branching6.v
theories/Proof_BranchMask.v
theories/Example_Branching.v
theories/Prop_Branching.v
theories/Model_Predict.v
theories/Spec_Predict.v
theories/Proof_Linalg.v
theories/Proof_Predict.v
theories/Proof_Predict2.v
theories/Proof_GP.v
theories/Proof_Ode.v
theories/Proof_Ensemble.v
theories/Proof_Ensemble2.v
theories/Proof_Rate.v
theories/Proof_Predict3.v
theories/Model_Ensemble.v
theories/Spec_Ensemble.v
theories/Proof_EnsembleCache.v
theories/Example_Predict.v
theories/Prop_Predict.v
theories/Prop_Ensemble.v
theories/Model_Taylor.v
theories/Spec_Taylor.v
theories/Proof_Taylor.v
theories/Prop_Taylor.v
theories/Model_Empirical.v
theories/Spec_Empirical.v
theories/Proof_Tsum.v
theories/Proof_Layout.v
theories/Proof_Dot.v
theories/Proof_Jacobian.v
theories/Proof_TraceDiag.v
theories/Proof_Vp.v
theories/Proof_Empirical.v
theories/Prop_Empirical.v
theories/Model_Structure.v
theories/Spec_Structure.v
theories/Proof_Structure.v
theories/Prop_Structure.v
theories/Model_Mask.v
theories/Spec_Mask.v
theories/Proof_Mask.v
theories/Proof_Mask2.v
theories/Proof_Mask3.v
theories/Prop_Mask.v
theories/Model_MaskNet.v
theories/Spec_MaskNet.v
theories/Proof_MaskStats.v
theories/Proof_MaskNet.v
theories/Prop_MaskNet.v
theories/Model_Finite.v
theories/Spec_Finite.v
theories/Proof_Finite.v
theories/Proof_Finite2.v
theories/Proof_Finite3.v
theories/Proof_Finite4.v
theories/Proof_Finite5.v
theories/Proof_Finite6.v
theories/Example_Finite.v
theories/Prop_Finite.v
theories/Model_Inputs.v
theories/Spec_Inputs.v
theories/Proof_Inputs.v
theories/Prop_Inputs.v
theories/Model_Aggregate.v
theories/Spec_Aggregate.v
theories/Proof_Move.v
theories/Proof_Einsum.v
theories/Proof_Aggregate.v
theories/Proof_Aggregate2.v
theories/Proof_Aggregate3.v
theories/Proof_Aggregate4.v
theories/Proof_Aggregate5.v
theories/Proof_Aggregate6.v
theories/Proof_Aggregate7.v
theories/Prop_Aggregate.v
theories/Model_Conv.v
theories/Spec_Conv.v
theories/Proof_Conv.v
theories/Proof_Conv2.v
theories/Proof_Conv3.v
theories/Proof_Conv4.v
theories/Proof_Transposed.v
theories/Proof_Conv5.v
theories/Proof_Conv6.v
theories/Proof_Conv7.v
theories/Proof_Conv8.v
theories/Prop_Conv.v
theories/Model_ConvApply.v
theories/Spec_ConvApply.v
theories/Spec_Transposed.v
theories/Proof_Adjoint.v
theories/Proof_ConvApply.v
theories/Proof_ConvApply2.v
theories/Prop_Transposed.v
theories/Model_DotGeneral.v
theories/Spec_DotGeneral.v
theories/Proof_DotGeneral.v
theories/Proof_DotGeneral2.v
theories/Proof_DotGeneral3.v
theories/Proof_DotGeneral4.v
theories/Proof_DotGeneral5.v
theories/Proof_DotGeneral6.v
theories/Proof_DotGeneral7.v
theories/Proof_DotGeneral8.v
theories/Prop_DotGeneral.v
theories/Model_Structured.v
theories/Spec_Structured.v
theories/Proof_Structured.v
theories/Proof_Structured2.v
theories/Proof_Structured3.v
theories/Proof_Structured4.v
theories/Proof_Structured5.v
theories/Prop_Structured.v
theories/Model_Lax.v
theories/Model_Rules.v
theories/Spec_Rules.v
theories/Proof_Rules.v
theories/Proof_Rules2.v
theories/Proof_Rules3.v
theories/Proof_Rules4.v
theories/Proof_Rules5.v
theories/Proof_Rules6.v
theories/Proof_Rules7.v
theories/Proof_Rules8.v
theories/Proof_Rules9.v
theories/Proof_Rules10.v
theories/Proof_Rules11.v
theories/Proof_Rules12.v
theories/Proof_Rules13.v
theories/Proof_Rules14.v
theories/Proof_Rules15.v
theories/Proof_RulesConv.v
theories/Proof_RulesConv2.v
theories/Proof_RulesConv3.v
theories/Proof_RulesConv4.v
theories/Proof_RulesConv5.v
theories/Proof_RulesConv6.v
theories/Proof_Rules16.v
theories/Proof_Rules17.v
theories/Prop_Rules.v
theories/Model_Backward.v
theories/Spec_Backward.v
theories/Proof_Backward.v
theories/Proof_Backward2.v
theories/Proof_Backward3.v
theories/Proof_Backward4.v
theories/Proof_Backward5.v
theories/Proof_Backward6.v
theories/Prop_Backward.v
theories/Model_Attention.v
theories/Spec_Attention.v
theories/Proof_Attention.v
theories/Proof_Attention2.v
theories/Proof_Attention3.v
theories/Proof_Attention4.v
theories/Proof_Attention5.v
theories/Proof_Attention6.v
theories/Proof_Attention7.v
theories/Proof_Attention8.v
theories/Proof_Attention9.v
theories/Proof_Attention10.v
theories/Prop_Attention.v
theories/Model_AttentionApply.v
theories/Spec_AttentionFinite.v
theories/Proof_AttentionFinite.v
theories/Proof_AttentionFinite2.v
theories/Proof_AttentionFinite3.v
theories/Proof_AttentionFinite4.v
theories/Proof_AttentionFinite5.v
theories/Proof_AttentionFinite6.v
theories/Proof_AttentionFinite7.v
theories/Example_AttentionFinite.v
theories/Proof_AttentionFinite8.v
theories/Proof_AttentionFinite9.v
theories/Proof_AttentionFinite10.v
theories/Proof_AttentionFinite11.v
theories/Proof_AttentionFinite12.v
theories/Proof_AttentionFinite13.v
theories/Proof_AttentionFinite14.v
theories/Prop_AttentionFinite.v
theories/Prop_AttentionLimit.v
theories/Model_PredictArr.v
theories/Spec_PredictArr.v
theories/Proof_PredictArr.v
theories/Proof_PredictArr2.v
theories/Proof_PredictArr3.v
theories/Proof_PredictArr4.v
theories/Proof_PredictArr5.v
theories/Prop_PredictArr.v
theories/Model_Layers.v
theories/Spec_Layers.v
theories/Proof_Layers.v
theories/Proof_Layers2.v
theories/Proof_Layers3.v
theories/Proof_Layers4.v
theories/Proof_Layers5.v
theories/Proof_Layers6.v
theories/Proof_Layers7.v
theories/Proof_Layers8.v
theories/Prop_Layers.v
theories/Model_Index.v
theories/Spec_Index.v
theories/Proof_Index.v
theories/Proof_Index2.v
theories/Proof_Index3.v
theories/Proof_Index4.v
theories/Prop_Index.v
theories/Model_EnsembleArr.v
theories/Spec_EnsembleArr.v
theories/Proof_EnsembleArr.v
theories/Proof_EnsembleArr2.v
theories/Proof_EnsembleArr3.v
theories/Proof_EnsembleArr4.v
theories/Prop_EnsembleArr.v
theories/Model_EnsembleKw.v
theories/Spec_EnsembleKw.v
theories/Proof_EnsembleKw.v
theories/Prop_EnsembleKw.v
theories/Model_Vmap.v
theories/Spec_Vmap.v
theories/Proof_Vmap.v
theories/Proof_Vmap2.v
theories/Proof_Vmap3.v
theories/Proof_Vmap4.v
theories/Proof_Vmap5.v
theories/Prop_Vmap.v
theories/Model_Masking.v
theories/Spec_Masking.v
theories/Model_MaskingLayers.v
theories/Proof_Masking.v
theories/Proof_Masking2.v
theories/Proof_Masking3.v
theories/Proof_Masking4.v
theories/Prop_Masking.v
theories/Model_InitShapes.v
theories/Spec_InitShapes.v
theories/Proof_InitShapes.v
theories/Proof_InitShapes2.v
theories/Proof_InitShapes3.v
theories/Prop_InitShapes.v
theories/Spec_MaskFits.v
theories/Proof_Masking5.v
theories/Proof_Masking6.v
theories/Proof_Masking7.v
theories/Proof_Masking8.v
theories/Proof_Masking9.v
theories/Prop_MaskFits.v
theories/Spec_Heard.v
theories/Proof_Heard.v
theories/Proof_Heard2.v
theories/Proof_Heard3.v
theories/Proof_Heard4.v
theories/Proof_Heard5.v
theories/Proof_Heard6.v
theories/Proof_Heard7.v
theories/Proof_Heard8.v
theories/Proof_Heard9.v
theories/Proof_Heard10.v
theories/Prop_Heard.v
theories/Model_Resize.v
theories/Spec_Resize.v
theories/Proof_Resize.v
theories/Prop_Resize.v
theories/Model_AggregateNet.v
theories/Proof_AggregateNet.v
theories/Prop_AggregateNet.v
