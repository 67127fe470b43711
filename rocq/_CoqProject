-Q theories Verif
theories/Base/F32.v
theories/Base/ListLemmas.v
theories/Base/Loops.v
theories/Base/Outcome.v
theories/Base/RSum.v
theories/Base/RTac.v
theories/Model/Api.v
theories/Model/ApiTransform.v
theories/Model/BBox.v
theories/Model/Bsdf.v
theories/Model/Camera.v
theories/Model/Clocker.v
theories/Model/ComplexNum.v
theories/Model/DiscretePdf.v
theories/Model/Driver.v
theories/Model/Film.v
theories/Model/FloatDirs.v
theories/Model/FloatFilm.v
theories/Model/FloatHit.v
theories/Model/FloatPath.v
theories/Model/FloatPhase.v
theories/Model/FloatRays.v
theories/Model/Fractal.v
theories/Model/Frame.v
theories/Model/Harness.v
theories/Model/Integrators.v
theories/Model/Json.v
theories/Model/Lifecycle.v
theories/Model/LightSelect.v
theories/Model/Locks.v
theories/Model/Matrix.v
theories/Model/Media.v
theories/Model/Mesh.v
theories/Model/Phase.v
theories/Model/Photon.v
theories/Model/PoolFilm.v
theories/Model/Renderer.v
theories/Model/SDF.v
theories/Model/Sandbox.v
theories/Model/Scene.v
theories/Model/SdfScene.v
theories/Model/Site.v
theories/Model/Texture.v
theories/Model/Tiles.v
theories/Model/TransFunc.v
theories/Model/Vec.v
theories/Model/VolPath.v
theories/Model/Warp.v
theories/Proof/ApiBase.v
theories/Proof/ApiCalls.v
theories/Proof/ApiClock.v
theories/Proof/ApiFlush.v
theories/Proof/ApiNew.v
theories/Proof/ApiObject.v
theories/Proof/ApiProof.v
theories/Proof/ApiRun.v
theories/Proof/ApiTotal.v
theories/Proof/BBoxProof.v
theories/Proof/BlackProof.v
theories/Proof/BounceProof.v
theories/Proof/BoundProof.v
theories/Proof/BsdfProof.v
theories/Proof/CameraProof.v
theories/Proof/ClockProof.v
theories/Proof/DiscreteProof.v
theories/Proof/DriverProof.v
theories/Proof/EstimateProof.v
theories/Proof/ExpectProof.v
theories/Proof/ExpectScene.v
theories/Proof/FilmProof.v
theories/Proof/FloatDirsProof.v
theories/Proof/FloatEstProof.v
theories/Proof/FloatFilmProof.v
theories/Proof/FloatHitProof.v
theories/Proof/FloatNormalProof.v
theories/Proof/FloatPathProof.v
theories/Proof/FloatPhaseProof.v
theories/Proof/FloatRaysProof.v
theories/Proof/FloatWarpsProof.v
theories/Proof/FrameProof.v
theories/Proof/GridProof.v
theories/Proof/HarnessProof.v
theories/Proof/HistoryProof.v
theories/Proof/IntegratorProof.v
theories/Proof/JsonComplete.v
theories/Proof/JsonLoad.v
theories/Proof/JsonProof.v
theories/Proof/LifecycleProof.v
theories/Proof/LinAlg.v
theories/Proof/LitScene.v
theories/Proof/LocksProof.v
theories/Proof/MediaProof.v
theories/Proof/MeshData.v
theories/Proof/MeshProof.v
theories/Proof/MixImage.v
theories/Proof/MixProof.v
theories/Proof/NoiseProof.v
theories/Proof/OrderProof.v
theories/Proof/PaintProof.v
theories/Proof/PhaseProof.v
theories/Proof/PhotonProof.v
theories/Proof/PoolExtra.v
theories/Proof/PoolFilmProof.v
theories/Proof/PoolLive.v
theories/Proof/PoolProof.v
theories/Proof/RendererProof.v
theories/Proof/SDFCone.v
theories/Proof/SDFProof.v
theories/Proof/SDFTrace.v
theories/Proof/SceneProof.v
theories/Proof/SdfSceneProof.v
theories/Proof/SiteProof.v
theories/Proof/SumProof.v
theories/Proof/TapeProof.v
theories/Proof/TilesProof.v
theories/Proof/TraceProof.v
theories/Proof/TransProof.v
theories/Proof/TransformProof.v
theories/Proof/TransportImage.v
theories/Proof/TransportProof.v
theories/Proof/VecLemmas.v
theories/Proof/VolPathProof.v
theories/Proof/VolPathTheory.v
theories/Proof/WarpProof.v
theories/Proof/WhittedProof.v
theories/Proof/WorkProof.v
theories/Props/Api.v
theories/Props/BBox.v
theories/Props/Beam.v
theories/Props/Black.v
theories/Props/Bounce.v
theories/Props/Bounds.v
theories/Props/Bsdf.v
theories/Props/Camera.v
theories/Props/Clocks.v
theories/Props/Discrete.v
theories/Props/Driver.v
theories/Props/Expect.v
theories/Props/Exposure.v
theories/Props/Film.v
theories/Props/FloatDirs.v
theories/Props/FloatFilm.v
theories/Props/FloatHit.v
theories/Props/FloatNormal.v
theories/Props/FloatPath.v
theories/Props/FloatPhase.v
theories/Props/FloatRays.v
theories/Props/Format.v
theories/Props/Fractal.v
theories/Props/Harness.v
theories/Props/Integrators.v
theories/Props/Json.v
theories/Props/JsonComplete.v
theories/Props/Lamps.v
theories/Props/Lifecycle.v
theories/Props/LightSelection.v
theories/Props/Lighting.v
theories/Props/LinAlg.v
theories/Props/Media.v
theories/Props/Mesh.v
theories/Props/Mix.v
theories/Props/Noise.v
theories/Props/Order.v
theories/Props/Paint.v
theories/Props/PathMean.v
theories/Props/Paths.v
theories/Props/Phase.v
theories/Props/Photon.v
theories/Props/RenderPool.v
theories/Props/SDF.v
theories/Props/Sandbox.v
theories/Props/SdfScene.v
theories/Props/Shade.v
theories/Props/Shading.v
theories/Props/Site.v
theories/Props/Sum.v
theories/Props/Texture.v
theories/Props/Trace.v
theories/Props/TransFunc.v
theories/Props/Transport.v
theories/Props/VolPath.v
theories/Props/Warp.v
theories/Props/Whitted.v
theories/Props/Work.v
theories/Spec/ApiSpec.v
theories/Spec/BBoxSpec.v
theories/Spec/BeamSpec.v
theories/Spec/BlackSpec.v
theories/Spec/BounceSpec.v
theories/Spec/BoundSpec.v
theories/Spec/BsdfSpec.v
theories/Spec/CameraSpec.v
theories/Spec/ClockSpec.v
theories/Spec/DiscreteSpec.v
theories/Spec/DriverSpec.v
theories/Spec/ExpectSpec.v
theories/Spec/FilmSpec.v
theories/Spec/FloatDirsSpec.v
theories/Spec/FloatEstSpec.v
theories/Spec/FloatFilmSpec.v
theories/Spec/FloatHitSpec.v
theories/Spec/FloatNormalSpec.v
theories/Spec/FloatPathSpec.v
theories/Spec/FloatPhaseSpec.v
theories/Spec/FloatRaysSpec.v
theories/Spec/FormatSpec.v
theories/Spec/FractalSpec.v
theories/Spec/FrameSpec.v
theories/Spec/HarnessSpec.v
theories/Spec/IntegratorSpec.v
theories/Spec/JsonSpec.v
theories/Spec/LifecycleSpec.v
theories/Spec/LinAlgSpec.v
theories/Spec/LitSpec.v
theories/Spec/MediaSpec.v
theories/Spec/MeshSpec.v
theories/Spec/MixSpec.v
theories/Spec/NoiseSpec.v
theories/Spec/OrderSpec.v
theories/Spec/PaintSpec.v
theories/Spec/PathSpec.v
theories/Spec/PhaseSpec.v
theories/Spec/PhotonSpec.v
theories/Spec/PoolSpec.v
theories/Spec/SDFSpec.v
theories/Spec/SceneSpec.v
theories/Spec/ShadeSpec.v
theories/Spec/SiteSpec.v
theories/Spec/SumSpec.v
theories/Spec/TapeSpec.v
theories/Spec/TilesSpec.v
theories/Spec/TraceSpec.v
theories/Spec/TransSpec.v
theories/Spec/TransportSpec.v
theories/Spec/VolPathSpec.v
theories/Spec/WarpSpec.v
theories/Spec/WhittedSpec.v
theories/Spec/WorkSpec.v
