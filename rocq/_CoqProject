-Q theories Verif
theories/TraversalModel.v
theories/TraversalSpec.v
theories/TraversalProofs.v
theories/TraversalLemmas.v
theories/TraversalProps.v
theories/TreeModel.v
theories/TreeSpec.v
theories/TreeProofs.v
theories/TreeProps.v
theories/OrderModel.v
theories/OrderSpec.v
theories/OrderProofs.v
theories/OrderProps.v
theories/IdModel.v
theories/IdProofs.v
theories/IdProps.v
theories/InjectorModel.v
theories/InjectorSpec.v
theories/InjectorProofs.v
theories/InjectorProps.v
theories/ProcessModel.v
theories/ProcessProps.v
theories/ChannelModel.v
theories/ChannelSpec.v
theories/ChannelProofs.v
theories/ChannelFreq.v
theories/ChannelProps.v
theories/MaterialModel.v
theories/MaterialProofs.v
theories/MaterialFile.v
theories/MaterialProps.v
theories/HexModel.v
theories/HexProps.v
theories/HepmcModel.v
theories/HepmcProofs.v
theories/HepmcProps.v
theories/HepgraphModel.v
theories/HepgraphSpec.v
theories/HepgraphProofs.v
theories/HepgraphRound.v
theories/HepgraphProps.v
theories/VectorModel.v
theories/QuatModel.v
theories/QuatSpec.v
theories/QuatProofs.v
theories/QuatPlace.v
theories/QuatProps.v
theories/PolyModel.v
theories/PolyProofs.v
theories/PolyProps.v
theories/DensityModel.v
theories/DensityProofs.v
theories/DensityProps.v
theories/GeometryModel.v
theories/GeometrySpec.v
theories/GeometryProofs.v
theories/GeometryCsg.v
theories/GeometryShape.v
theories/GeometryProps.v
theories/SectorModel.v
theories/SectorSpec.v
theories/SectorProofs.v
theories/SectorReg.v
theories/SectorProps.v
theories/DepthModel.v
theories/DepthSpec.v
theories/DepthProofs.v
theories/DepthMain.v
theories/DepthProps.v
theories/TableModel.v
theories/TableSpec.v
theories/TableProofs.v
theories/TableTrap.v
theories/TableProps.v
theories/VertexModel.v
theories/VertexSpec.v
theories/VertexBounds.v
theories/VertexProofs.v
theories/VertexProps.v
theories/RandomModel.v
theories/RandomSpec.v
theories/RandomProofs.v
theories/RandomCone.v
theories/RandomProps.v
theories/WeightModel.v
theories/WeightSpec.v
theories/WeightProofs.v
theories/WeightProps.v
theories/GdmlModel.v
theories/GdmlSpec.v
theories/GdmlProofs.v
theories/GdmlReject.v
theories/GdmlProps.v
theories/GdmlLoopModel.v
theories/GdmlLoopSpec.v
theories/GdmlLoopProofs.v
theories/GdmlLoopTree.v
theories/GdmlLoopMeaning.v
theories/GdmlLoopProps.v
theories/GdmlUnitModel.v
theories/GdmlUnitSpec.v
theories/GdmlUnitProps.v
theories/PathModel.v
theories/PathSpec.v
theories/PathProofs.v
theories/PathMain.v
theories/PathProps.v
theories/RankModel.v
theories/RankDistModel.v
theories/RankSpec.v
theories/RankProofs.v
theories/RankDistProofs.v
theories/RankProps.v
theories/RecordModel.v
theories/RecordSpec.v
theories/RecordProofs.v
theories/RecordMain.v
theories/RecordProps.v
theories/RecordLineProps.v
theories/DaughterModel.v
theories/DaughterSpec.v
theories/DaughterProofs.v
theories/DaughterProps.v
theories/FinalProofs.v
theories/FinalProps.v
theories/SecondProps.v
theories/RkModel.v
theories/RkSpec.v
theories/RkProofs.v
theories/RkProps.v
theories/DipoleModel.v
theories/DipoleSpec.v
theories/DipoleProofs.v
theories/DipoleProps.v
theories/MhModel.v
theories/MhSpec.v
theories/MhProofs.v
theories/MhProps.v
theories/TurnModel.v
theories/TurnProofs.v
theories/ElasticModel.v
theories/ElasticSpec.v
theories/ElasticProofs.v
theories/ElasticProps.v
theories/DisModel.v
theories/DisSpec.v
theories/DisProofs.v
theories/DisProps.v
theories/HnlModel.v
theories/HnlSpec.v
theories/HnlProofs.v
theories/HnlProps.v
theories/Hnl3Model.v
theories/Hnl3Spec.v
theories/Hnl3Proofs.v
theories/Hnl3Props.v
theories/QuadModel.v
theories/QuadSpec.v
theories/QuadProofs.v
theories/QuadProps.v
theories/TransModel.v
theories/TransSpec.v
theories/TransProofs.v
theories/TransProps.v
theories/IdxModel.v
theories/IdxSpec.v
theories/IdxProofs.v
theories/IdxProps.v
theories/GridProps.v
theories/SelProps.v
theories/DelModel.v
theories/DelSpec.v
theories/DelProofs.v
theories/DelProps.v
theories/PathDepthSpec.v
theories/PathDepthProofs.v
theories/PathDepthProps.v
theories/PathColumnProps.v
theories/PathWithinProps.v
theories/MeshModel.v
theories/MeshSpec.v
theories/MeshProofs.v
theories/MeshTreeProofs.v
theories/MeshSearchProofs.v
theories/MeshFloat.v
theories/MeshProps.v
theories/MeshMergeProps.v
theories/MeshCountProofs.v
theories/MeshClosedProofs.v
theories/MeshClosedProps.v
theories/SolidModel.v
theories/SolidSpec.v
theories/SolidProofs.v
theories/SolidShapes.v
theories/SolidRound.v
theories/SolidFlat.v
theories/SolidProps.v
theories/HullModel.v
theories/HullSpec.v
theories/HullProofs.v
theories/HullTrap.v
theories/HullProps.v
theories/EulerModel.v
theories/EulerSpec.v
theories/EulerProofs.v
theories/EulerOrders.v
theories/EulerNear.v
theories/EulerProps.v
theories/CharmModel.v
theories/CharmSpec.v
theories/CharmQuad.v
theories/CharmProofs.v
theories/CharmRun.v
theories/CharmProps.v
theories/RombModel.v
theories/RombSpec.v
theories/RombProofs.v
theories/RombRun.v
theories/RombSimpson.v
theories/RombProps.v
theories/GdmlMatrixProps.v
theories/ElossModel.v
theories/ElossSpec.v
theories/ElossProofs.v
theories/ElossProps.v
theories/EwModel.v
theories/EwSpec.v
theories/EwProofs.v
theories/EwProps.v
theories/DefModel.v
theories/DefSpec.v
theories/DefProofs.v
theories/DefProps.v
theories/InstModel.v
theories/InstSpec.v
theories/InstProofs.v
theories/InstStore.v
theories/InstFlat.v
theories/InstProps.v
theories/MergeModel.v
theories/MergeSpec.v
theories/MergeProofs.v
theories/MergeProps.v
theories/MixModel.v
theories/MixSpec.v
theories/MixProofs.v
theories/MixProps.v
theories/VolModel.v
theories/VolSpec.v
theories/VolProofs.v
theories/VolProps.v
theories/DeferModel.v
theories/DeferSpec.v
theories/DeferProofs.v
theories/DeferProps.v
theories/PointModel.v
theories/PointSpec.v
theories/PointProofs.v
theories/PointProps.v
theories/FluxModel.v
theories/FluxSpec.v
theories/FluxProofs.v
theories/FluxProps.v
theories/FillModel.v
theories/FillSpec.v
theories/FillProofs.v
theories/FillProps.v
theories/ExtModel.v
theories/ExtSpec.v
theories/ExtProofs.v
theories/ExtProps.v
theories/WedgeModel.v
theories/WedgeSpec.v
theories/WedgeProofs.v
theories/WedgeLine.v
theories/WedgeMerge.v
theories/WedgeCut.v
theories/WedgeProps.v
theories/ProbModel.v
theories/ProbProps.v
theories/PconeModel.v
theories/PconeSpec.v
theories/PconeProofs.v
theories/PconeProps.v
theories/YtabModel.v
theories/YtabSpec.v
theories/YtabProofs.v
theories/YtabProps.v
theories/DarkModel.v
theories/DarkSpec.v
theories/DarkProofs.v
theories/DarkProps.v
theories/DummyModel.v
theories/DummySpec.v
theories/DummyProps.v
theories/QkModel.v
theories/QkSpec.v
theories/QkProofs.v
theories/QkProps.v
theories/HdisModel.v
theories/HdisSpec.v
theories/HdisProofs.v
theories/HdisProps.v
theories/OwnModel.v
theories/OwnProps.v
theories/FrusModel.v
theories/FrusProofs.v
theories/FrusProps.v
theories/FrustModel.v
theories/FrustProps.v
theories/FrustumModel.v
theories/FrustumProofs.v
theories/FrustumProps.v
