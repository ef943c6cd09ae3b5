-Q theories Verif
theories/Spec.v
theories/Tensor.v
theories/Utils.v
theories/LagrangePolynomial.v
theories/Basis.v
theories/PolynomialLayers.v
theories/Refine.v
theories/Normalization.v
theories/ProductLayer.v
theories/Rotation.v
theories/SparseLion.v
theories/Expand.v
theories/Convolution.v
theories/LagrangeND.v
theories/Layers.v
theories/ConvOptions.v
theories/Networks.v
theories/Dropout.v
theories/Attention.v
theories/Embedding.v
theories/Vae.v
theories/FloatUtils.v
theories/FloatLion.v
theories/ConvNetworks.v
theories/Observe.v
theories/ObserveNet.v
theories/SumFacts.v
theories/TensorFacts.v
theories/LagrangeFacts.v
theories/LayerFacts.v
theories/SegmentFacts.v
theories/LayerProofs.v
theories/RefineFacts.v
theories/NormFacts.v
theories/ObserveConv.v
theories/ExpandFacts.v
theories/ConvFacts.v
theories/NDFacts.v
theories/HeapFacts.v
theories/NetFacts.v
theories/NetCopy.v
theories/Prop_Basis.v
theories/Prop_Layers.v
theories/Prop_Refine.v
theories/Prop_Norm.v
theories/Prop_Product.v
theories/Prop_Rotation.v
theories/Prop_Lion.v
theories/Prop_Conv.v
theories/Prop_ND.v
theories/Prop_Net.v
theories/NetTypes.v
theories/Prop_MLP.v
theories/Prop_Switch.v
theories/ObserveAttention.v
theories/AttentionFacts.v
theories/Prop_Attention.v
theories/Prop_MultiHead.v
theories/Prop_MHLocation.v
theories/Prop_Relative.v
theories/Prop_Embedding.v
theories/Prop_Vae.v
theories/Prop_Float.v
theories/ObserveConvNet.v
theories/ConvNetFacts.v
theories/Prop_Factory.v
theories/Prop_ConvNet.v
theories/Prop_Tail.v
theories/Prop_Deconv.v
theories/Modules.v
theories/ObserveModules.v
theories/Prop_Step.v
theories/Prop_Select.v
theories/Prop_Selected.v
theories/Prop_Lazy.v
theories/ContinuityFacts.v
theories/Prop_Continuity.v
theories/Prop_Init.v
theories/Prop_Params.v
theories/LebesgueFacts.v
theories/CompactFacts.v
theories/Prop_Bounds.v
theories/Prop_Approx.v
theories/Prop_Represent.v
theories/Prop_Universal.v
theories/LayerNorm.v
theories/Examples.v
theories/ExampleVae.v
theories/Prop_LayerNorm.v
theories/Prop_Fresh.v
theories/Prop_Convex.v
theories/Prop_Lipschitz.v
theories/Prop_Dense.v
theories/Prop_Refining.v
theories/Prop_Rows.v
theories/Prop_Block.v
theories/Prop_Images.v
theories/Prop_Identify.v
theories/Prop_Xor.v
theories/WeierstrassFacts.v
theories/Prop_Series.v
theories/Prop_Function.v
theories/Prop_VaeExample.v
theories/FloatLayers.v
theories/FloatNetworks.v
theories/FloatFacts.v
theories/Prop_FloatLayers.v
theories/Prop_FloatPiecewise.v
theories/Prop_Stages.v
theories/Prop_ConvOptions.v
theories/Prop_ConvAnalysis.v
theories/Prop_FloatLion.v
theories/Prop_InputGrad.v
theories/Prop_FloatSegments.v
theories/Prop_FloatNet.v
theories/Prop_Dropout.v
theories/Prop_DeconvAnalysis.v
theories/Prop_Descent.v
theories/Prop_AttnDropout.v
theories/Prop_Resnet.v
theories/DeconvOptions.v
theories/Prop_DeconvOptions.v
theories/Prop_Lines.v
theories/Prop_Backprop.v
theories/Prop_Saturation.v
theories/Prop_Transform.v
theories/Prop_LowOrder.v
